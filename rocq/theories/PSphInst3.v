(** Transforms satisfying the contract assumed of SHTns exist, for the true spherical harmonics and every
    resolution: the hypotheses [lawful], [clawful], [off_poles] of the theorems about class Sphere are met. *)
From Coq Require Import Reals Lra.
From Coquelicot Require Import Coquelicot.
From Verif Require Import Base BaseLemmas ForList Arith MSphere PGrid PMake PSphere PSphere2 Spec SphereSpec PSum PFdR PSphereR
  PropSphere PropLadder LegSpec PLeg PSphereD PropSphereD PSphInst PSphInst2 PropGridFilter.
Local Open Scope R_scope.

Section Build.
Variables (b : build) (L M nlat nphi : nat) (ct : list R).
Hypothesis HM : (M <= L)%nat.
Hypothesis HL : (L < nlat)%nat.
Hypothesis Hphi : (2 * L < nphi)%nat.
Hypothesis Lct : length ct = nlat.
Hypothesis Hdist : forall i j, (i < nlat)%nat -> (j < nlat)%nat -> nth i ct 0 = nth j ct 0 -> i = j.
Hypothesis Hint : forall i, (i < nlat)%nat -> -1 < nth i ct 0 < 1.
Local Notation P := Ylm_profile.
Let N := (nlat * nphi)%nat.
Let K := ((L + 1) * (L + 1))%nat.
(** the point stored at position i *)
Definition it_of i := if contiguous b then (i mod nlat)%nat else (i / nphi)%nat.
Definition ip_of i := if contiguous b then (i / nlat)%nat else (i mod nphi)%nat.
Definition th_of i := acos (nth (it_of i) ct 0).
Definition ph_of i := 2 * PI * INR (ip_of i) / INR nphi.
Lemma of_pos it ip : (it < nlat)%nat -> (ip < nphi)%nat ->
  let i := if contiguous b then (nlat * ip + it)%nat else (nphi * it + ip)%nat in (i < N)%nat /\ it_of i = it /\ ip_of i = ip.
Proof.
  intros Ht Hp i. unfold i, it_of, ip_of, N. destruct (contiguous b).
  - rewrite (Nat.mul_comm nlat ip). rewrite Nat.div_add_l, Nat.div_small by lia.
    rewrite (Nat.add_comm (ip * nlat)), Nat.mod_add, Nat.mod_small by lia. repeat split; nia.
  - rewrite (Nat.mul_comm nphi it). rewrite Nat.div_add_l, Nat.div_small by lia.
    rewrite (Nat.add_comm (it * nphi)), Nat.mod_add, Nat.mod_small by lia. repeat split; nia.
Qed.
Lemma pos_of i : (i < N)%nat -> (it_of i < nlat)%nat /\ (ip_of i < nphi)%nat.
Proof.
  intros Hi. unfold it_of, ip_of, N in *. destruct (contiguous b).
  - split; [apply Nat.mod_upper_bound; lia|apply Nat.div_lt_upper_bound; lia].
  - split; [apply Nat.div_lt_upper_bound; lia|apply Nat.mod_upper_bound; lia].
Qed.

(** the matrix of the synthesis *)
Definition er j i := prof P (dl j) (dm j) (th_of i) * cos (IZR (dm j) * ph_of i).
Definition ei j i := prof P (dl j) (dm j) (th_of i) * sin (IZR (dm j) * ph_of i).
Definition T j i := if Nat.ltb j K then (if Nat.ltb i N then er j i else ei j (i - N))
                    else (if Nat.ltb i N then - ei (j - K) i else er (j - K) (i - N)).
Lemma T_apply (X : nat -> R) i : (i < N)%nat ->
  Rsum (K + K) (fun j => X j * T j i) = Rsum K (fun j => X j * er j i - X (K + j)%nat * ei j i) /\
  Rsum (K + K) (fun j => X j * T j (N + i)) = Rsum K (fun j => X j * ei j i + X (K + j)%nat * er j i).
Proof.
  intros Hi. split; rewrite Rsum_split, <- Rsum_add; apply Rsum_ext; intros j Hj; unfold T;
    destruct (Nat.ltb_spec j K); try lia; destruct (Nat.ltb_spec (K + j) K); try lia.
  - destruct (Nat.ltb_spec i N); try lia. replace (K + j - K)%nat with j by lia. ring.
  - destruct (Nat.ltb_spec (N + i) N); try lia. replace (N + i - N)%nat with i by lia. replace (K + j - K)%nat with j by lia. ring.
Qed.
Lemma T_field (c : cspectrum) i : (i < N)%nat ->
  let X j := if Nat.ltb j K then fst (c (dl j) (dm j)) else snd (c (dl (j - K)) (dm (j - K))) in
  Rsum (K + K) (fun j => X j * T j i) = cre P L c (th_of i) (ph_of i) /\
  Rsum (K + K) (fun j => X j * T j (N + i)) = cim P L c (th_of i) (ph_of i).
Proof.
  intros Hi X. destruct (T_apply X i Hi) as [-> ->].
  assert (E : forall j, (j < K)%nat -> X j = fst (c (dl j) (dm j)) /\ X (K + j)%nat = snd (c (dl j) (dm j))).
  { intros j Hj. unfold X. destruct (Nat.ltb_spec j K), (Nat.ltb_spec (K + j) K); try lia.
    now replace (K + j - K)%nat with j by lia. }
  split.
  - unfold cre. rewrite (flat_field P L c (fun p z => fst p * cos z - snd p * sin z)). fold K.
    apply Rsum_ext. intros j Hj. destruct (E j Hj) as [-> ->]. unfold er, ei. ring.
  - unfold cim. rewrite (flat_field P L c (fun p z => fst p * sin z + snd p * cos z)). fold K.
    apply Rsum_ext. intros j Hj. destruct (E j Hj) as [-> ->]. unfold er, ei. ring.
Qed.
Lemma T_indep : indep (N + N) (K + K) T.
Proof.
  intros x Hx.
  set (a := fun (l : nat) (m : Z) => (x (ci l m), x (K + ci l m)%nat)).
  assert (Z : forall l m, (l <= L)%nat -> (- Z.of_nat l <= m <= Z.of_nat l)%Z -> a l m = (0, 0)).
  { apply (sampling_injective L nlat nphi ct a HL Hphi Hdist Hint). intros it ip Ht Hp.
    pose proof (of_pos it ip Ht Hp) as Hpos. cbv zeta in Hpos.
    set (i := if contiguous b then (nlat * ip + it)%nat else (nphi * it + ip)%nat) in Hpos. destruct Hpos as (Hi & Et & Ep).
    pose proof (T_field a i Hi) as TF. cbv zeta in TF. destruct TF as [E1 E2]. unfold th_of, ph_of in E1, E2. rewrite Et, Ep in E1, E2.
    rewrite <- E1, <- E2.
    assert (Ex : forall j, (j < K + K)%nat -> (if Nat.ltb j K then fst (a (dl j) (dm j)) else snd (a (dl (j - K)) (dm (j - K)))) = x j).
    { intros j Hj. unfold a. cbn [fst snd]. destruct (Nat.ltb_spec j K).
      - destruct (ci_decode j (L + 1) ltac:(assumption)) as (-> & _). auto.
      - destruct (ci_decode (j - K) (L + 1) ltac:(unfold K in *; lia)) as (-> & _). f_equal. lia. }
    split; (etransitivity; [apply Rsum_ext; intros j Hj; rewrite (Ex j Hj); reflexivity|]); apply Hx; lia. }
  intros k Hk. destruct (lt_dec k K) as [H|H].
  - destruct (ci_decode k (L + 1) H) as (E & Hl & Hm). specialize (Z (dl k) (dm k) ltac:(lia) Hm).
    unfold a in Z. rewrite E in Z. congruence.
  - destruct (ci_decode (k - K) (L + 1) ltac:(unfold K in *; lia)) as (E & Hl & Hm). specialize (Z (dl (k - K)) (dm (k - K)) ltac:(lia) Hm).
    unfold a in Z. rewrite E in Z. replace (K + (k - K))%nat with k in Z by lia. congruence.
Qed.

Definition dc (c : list (R * R)) : cspectrum := fun l m => nth (ci l m) c (0, 0).
Definition dr (c : list (R * R)) : spectrum := fun l m => nth (LM L l m) c (0, 0).
Definition syc (c : list (R * R)) : list (R * R) := map (fun i => (cre P L (dc c) (th_of i) (ph_of i), cim P L (dc c) (th_of i) (ph_of i))) (seq 0 N).
Definition sy (c : list (R * R)) : list R := map (fun i => real_field P L M (dr c) (th_of i) (ph_of i)) (seq 0 N).
Definition anc (w : nat -> nat -> R) (v : list (R * R)) : list (R * R) :=
  let V i := if Nat.ltb i N then fst (nth i v (0, 0)) else snd (nth (i - N) v (0, 0)) in
  map (fun j => (dot (N + N) (w j) V, dot (N + N) (w (K + j)%nat) V)) (seq 0 K).
Definition an (w : nat -> nat -> R) (lm : list (nat * nat)) (v : list R) : list (R * R) :=
  map (fun j => nth (ci (fst (nth j lm (0, 0)%nat)) (Z.of_nat (snd (nth j lm (0, 0)%nat)))) (anc w (map (fun x => (x, 0)) v)) (0, 0))
      (seq 0 (nlm_calc L M)).
Definition hh w lm : sht R := Sht L M nlat nphi N ct (an w lm) sy (anc w) syc.

Section With.
Variables (w : nat -> nat -> R) (lm : list (nat * nat)).
Hypothesis Hw : forall j k, (j < K + K)%nat -> (k < K + K)%nat -> dot (N + N) (w j) (T k) = if Nat.eqb j k then 1 else 0.
Hypothesis Llm : length lm = nlm_calc L M.
Hypothesis Hlm : forall j, (j < nlm_calc L M)%nat -> let p := nth j lm (0, 0)%nat in
  (fst p <= L)%nat /\ (snd p <= fst p)%nat /\ (snd p <= M)%nat /\ LM L (fst p) (snd p) = j.
Let h := hh w lm.

Lemma syc_sampled c a : cstores h c a -> csampled b h (cre P L a) (cim P L a) (syc c).
Proof.
  intros [Lc Hc]. split; [unfold syc; now rewrite map_length, seq_length|]. intros it ip Ht Hp.
  change (s_nlat h) with nlat in *. change (s_nphi h) with nphi in *.
  pose proof (of_pos it ip Ht Hp) as Hpos. cbv zeta in Hpos. unfold spos. change (s_nlat h) with nlat. change (s_nphi h) with nphi.
  set (i := if contiguous b then _ else _) in *. destruct Hpos as (Hi & Et & Ep).
  unfold syc. rewrite (nth_indep _ (0, 0) ((fun i => (cre P L (dc c) (th_of i) (ph_of i), cim P L (dc c) (th_of i) (ph_of i))) 0%nat))
    by (now rewrite map_length, seq_length).
  rewrite (map_nth (fun i => (cre P L (dc c) (th_of i) (ph_of i), cim P L (dc c) (th_of i) (ph_of i)))), seq_nth by auto. rewrite Nat.add_0_l.
  unfold grid_theta, grid_phi. change (s_ct h) with ct. change (s_nphi h) with nphi.
  unfold th_of, ph_of. rewrite Et, Ep.
  destruct (cre_ext h P (dc c) a (acos (nth it ct 0)) (2 * PI * INR ip / INR nphi)) as [E1 E2].
  { intros l m Hl Hm. apply Hc; auto. }
  change (s_lmax h) with L in E1, E2. rewrite E1, E2. reflexivity.
Qed.
Lemma anc_length v : length (anc w v) = K.
Proof. unfold anc. now rewrite map_length, seq_length. Qed.
Lemma anc_syc c : length c = K -> anc w (syc c) = c.
Proof.
  intros Lc. apply (nth_ext _ _ (0, 0) (0, 0)); [now rewrite anc_length|]. intros j Hj. rewrite anc_length in Hj.
  set (X := fun j => if Nat.ltb j K then fst (dc c (dl j) (dm j)) else snd (dc c (dl (j - K)) (dm (j - K)))).
  set (V := fun i => if Nat.ltb i N then fst (nth i (syc c) (0, 0)) else snd (nth (i - N) (syc c) (0, 0))).
  assert (EV : forall i, (i < N + N)%nat -> V i = Rsum (K + K) (fun k => X k * T k i)).
  { assert (En : forall i, (i < N)%nat -> nth i (syc c) (0, 0) = (cre P L (dc c) (th_of i) (ph_of i), cim P L (dc c) (th_of i) (ph_of i))).
    { intros i Hi. unfold syc. rewrite (nth_indep _ (0, 0) ((fun i => (cre P L (dc c) (th_of i) (ph_of i), cim P L (dc c) (th_of i) (ph_of i))) 0%nat))
        by (now rewrite map_length, seq_length).
      rewrite (map_nth (fun i => (cre P L (dc c) (th_of i) (ph_of i), cim P L (dc c) (th_of i) (ph_of i)))), seq_nth by auto. reflexivity. }
    intros i Hi. unfold V. destruct (Nat.ltb_spec i N).
    - rewrite En by auto. cbn [fst]. symmetry. apply (T_field (dc c) i); auto.
    - rewrite En by lia. cbn [snd]. destruct (T_field (dc c) (i - N) ltac:(lia)) as [_ E]. rewrite <- E.
      replace (N + (i - N))%nat with i by lia. reflexivity. }
  assert (D : forall j, (j < K + K)%nat -> dot (N + N) (w j) V = X j).
  { intros k Hk. rewrite (dot_ext _ (w k) (w k) V (fun i => Rsum (K + K) (fun q => X q * T q i))) by auto.
    rewrite dot_sym, dot_sum, (Rsum_single _ _ k); auto.
    - rewrite dot_sym, Hw, Nat.eqb_refl by auto. ring.
    - intros q Hq Hne. rewrite dot_sym, Hw by auto. destruct (Nat.eqb_spec k q); [congruence|ring]. }
  unfold anc. fold V.
  rewrite (nth_indep _ (0, 0) ((fun j => (dot (N + N) (w j) V, dot (N + N) (w (K + j)%nat) V)) 0%nat)) by (now rewrite map_length, seq_length).
  rewrite (map_nth (fun j => (dot (N + N) (w j) V, dot (N + N) (w (K + j)%nat) V))), seq_nth, Nat.add_0_l by auto.
  rewrite !D by lia. unfold X. destruct (Nat.ltb_spec j K), (Nat.ltb_spec (K + j) K); try lia.
  replace (K + j - K)%nat with j by lia. unfold dc. destruct (ci_decode j (L + 1) Hj) as (-> & _). now rewrite <- surjective_pairing.
Qed.
Lemma h_clawful : M = L -> clawful b h P.
Proof.
  intros E. constructor; [exact E|apply syc_sampled|]. intros c a [Lc _]. now apply anc_syc.
Qed.

Definition trunc (a : spectrum) : spectrum := fun l m => if Nat.leb m M then a l m else (0, 0).
Lemma trunc_field a th ph : real_field P L M a th ph = real_field P L L (trunc a) th ph.
Proof.
  unfold real_field. apply Rsum_ext. intros l Hl. rewrite (Nat.min_l l L) by lia.
  replace (l + 1)%nat with (Nat.min l M + 1 + (l - Nat.min l M))%nat by lia. rewrite (Rsum_split (Nat.min l M + 1) (l - Nat.min l M)).
  rewrite (Rsum_zero (l - Nat.min l M)).
  - rewrite Rplus_0_r. apply Rsum_ext. intros m Hm. unfold trunc. destruct (Nat.leb_spec m M); auto. lia.
  - intros i Hi. unfold trunc. destruct (Nat.leb_spec (Nat.min l M + 1 + i) M); [lia|]. unfold mode. cbn [fst snd]. destruct (Nat.eqb _ 0); ring.
Qed.
Lemma sy_sampled c a : stores h c a -> sampled b h (real_field P L M a) (sy c).
Proof.
  intros [Lc Hc]. split; [unfold sy; now rewrite map_length, seq_length|]. intros it ip Ht Hp.
  change (s_nlat h) with nlat in *. change (s_nphi h) with nphi in *.
  pose proof (of_pos it ip Ht Hp) as Hpos. cbv zeta in Hpos. unfold spos. change (s_nlat h) with nlat. change (s_nphi h) with nphi.
  set (i := if contiguous b then _ else _) in *. destruct Hpos as (Hi & Et & Ep).
  unfold sy. rewrite (nth_indep _ 0 ((fun i => real_field P L M (dr c) (th_of i) (ph_of i)) 0%nat)) by (now rewrite map_length, seq_length).
  rewrite (map_nth (fun i => real_field P L M (dr c) (th_of i) (ph_of i))), seq_nth by auto. rewrite Nat.add_0_l.
  unfold grid_theta, grid_phi. change (s_ct h) with ct. change (s_nphi h) with nphi.
  unfold th_of, ph_of. rewrite Et, Ep. apply (real_field_ext h P). intros l m Hl Hm HM'. apply Hc; auto.
Qed.
Lemma h_lawful : lawful b h P.
Proof.
  constructor.
  - constructor; auto.
    + intros v _. cbn. unfold an. now rewrite map_length, seq_length.
    + intros c _. cbn. unfold sy. now rewrite map_length, seq_length.
    + intros v _. cbn. apply anc_length.
    + intros c _. cbn. unfold syc. now rewrite map_length, seq_length.
  - apply sy_sampled.
  - intros c a Hst Ha. change (an w lm (sy c) = c).
    assert (Ht : real_spectrum (trunc a)). { intros l. unfold trunc. destruct (Nat.leb 0 M); cbn; auto. }
    destruct (cpack h (both_signs (trunc a))) as (c' & Hc').
    assert (E : map (fun x => (x, 0)) (sy c) = syc c').
    { apply (csampled_unique b h (cre P L (both_signs (trunc a))) (cim P L (both_signs (trunc a)))); [|now apply syc_sampled].
      destruct (sy_sampled c a Hst) as [Ls Hs]. split; [now rewrite map_length|]. intros it ip Hit Hip.
      rewrite cre_real', cim_real' by auto. rewrite <- trunc_field, <- (Hs it ip Hit Hip).
      exact (map_nth (fun x : R => (x, 0)) (sy c) 0 (spos b h it ip)). }
    destruct Hst as [Lc Hc]. change (s_lmax h) with L in *. change (s_mmax h) with M in *.
    apply (nth_ext _ _ (0, 0) (0, 0)); [unfold an; now rewrite map_length, seq_length|].
    intros j Hj. unfold an in Hj. rewrite map_length, seq_length in Hj. unfold an. rewrite E, anc_syc by apply Hc'.
    set (F := fun j => nth (ci (fst (nth j lm (0, 0)%nat)) (Z.of_nat (snd (nth j lm (0, 0)%nat)))) c' (0, 0)).
    rewrite (nth_indep _ (0, 0) (F 0%nat)) by (now rewrite map_length, seq_length). rewrite (map_nth F), seq_nth, Nat.add_0_l by auto.
    unfold F. destruct (Hlm j Hj) as (H1 & H2 & H3 & H4). set (l := fst _) in *. set (m := snd _) in *.
    rewrite (proj2 Hc') by (auto; lia). rewrite both_pos by lia. replace (Z.abs_nat (Z.of_nat m)) with m by lia.
    unfold trunc. destruct (Nat.leb_spec m M); [|lia]. rewrite <- H4. symmetry. apply Hc; auto.
Qed.
End With.

Theorem transforms_exist : exists h : sht R,
  s_lmax h = L /\ s_mmax h = M /\ s_nlat h = nlat /\ s_nphi h = nphi /\ s_ct h = ct /\
  lawful b h Ylm_profile /\ (M = L -> clawful b h Ylm_profile) /\ off_poles h.
Proof.
  destruct (dual (N + N) (K + K) T T_indep) as (w & Hw & _).
  destruct (finite_choice (0, 0)%nat (nlm_calc L M) (fun j p => (fst p <= L)%nat /\ (snd p <= fst p)%nat /\ (snd p <= M)%nat /\ LM L (fst p) (snd p) = j))
    as (lm & Llm & Hlm).
  { intros k Hk. destruct (LM_surj L M k HM Hk) as (l & m & ? & ? & ? & ?). exists (l, m). auto. }
  exists (hh w lm). repeat (split; [reflexivity|]). split; [now apply h_lawful|]. split; [intros; now apply h_clawful|].
  intros it Hit. now apply Hint.
Qed.
End Build.
