(** * Properties C31, C32, C33: raise, lower and sphereX. *)
From Coq Require Import Reals Lra.
From Coquelicot Require Import Coquelicot.
From Verif Require Import Base BaseLemmas ForList Arith MSphere PGrid PMake PSphere PSphere2 Spec SphereSpec PSum PFdR PSphereR PropSphere.

Local Open Scope nat_scope.
Section Generic.
Context {F : Type} {AF : Arith F}.
Variables (b : build) (h : sht F) (s : sphere F).
Hypothesis Hsh : shapes h.
Hypothesis Hs : Sphr_of h s.
Local Notation N := (s_nlat h * s_nphi h).
Local Notation L := (s_lmax h).

(** ** C31: any arithmetic; [f l m] is the transform of the input, stored at l(l+1)+m.  sqrt is pow(.,0.5). *)
Theorem C31_raise v r : (Z.of_nat L < 2 ^ 31)%Z -> length v = N -> length r = N ->
  let f l m := nth (ci l m) (s_anc h (map (fun x => (x, fofZ 0)) v)) c0 in
  exists y, raise b s v r = Ok (s_syc h y) /\ length y = (L + 1) * (L + 1) /\
    (forall l m, l < L -> (- Z.of_nat l < m <= Z.of_nat l)%Z ->
       nth (ci l m) y c0 = cscale (fpowh (fofZ ((Z.of_nat l - m + 1) * (Z.of_nat l + m)))) (f l (m - 1)%Z)) /\
    (forall l, l < L -> nth (ci l (- Z.of_nat l)) y c0 = c0) /\
    (forall m, (- Z.of_nat L <= m <= Z.of_nat L)%Z -> nth (ci L m) y c0 = f L m).
Proof.
  intros HL Hv Hr f. destruct (raise_ok b h s Hsh Hs v r HL Hv Hr) as (y & E & Ly & _ & H1 & H2).
  exists y. repeat split; auto.
  - intros l m Hl Hm. rewrite H1 by (auto; lia). destruct (Z.eqb_spec m (- Z.of_nat l)); [lia|reflexivity].
  - intros l Hl. rewrite H1 by (auto; lia). now rewrite Z.eqb_refl.
Qed.
Theorem C31_lower v r : (Z.of_nat L < 2 ^ 31)%Z -> length v = N -> length r = N ->
  let f l m := nth (ci l m) (s_anc h (map (fun x => (x, fofZ 0)) v)) c0 in
  exists y, lower b s v r = Ok (s_syc h y) /\ length y = (L + 1) * (L + 1) /\
    (forall l m, l < L -> (- Z.of_nat l <= m < Z.of_nat l)%Z ->
       nth (ci l m) y c0 = cscale (fpowh (fofZ ((Z.of_nat l + m + 1) * (Z.of_nat l - m)))) (f l (m + 1)%Z)) /\
    (forall l, l < L -> nth (ci l (Z.of_nat l)) y c0 = c0) /\
    (forall m, (- Z.of_nat L <= m <= Z.of_nat L)%Z -> nth (ci L m) y c0 = f L m).
Proof.
  intros HL Hv Hr f. destruct (lower_ok b h s Hsh Hs v r HL Hv Hr) as (y & E & Ly & _ & H1 & H2).
  exists y. repeat split; auto.
  - intros l m Hl Hm. rewrite H1 by (auto; lia). destruct (Z.eqb_spec m (Z.of_nat l)); [lia|reflexivity].
  - intros l Hl. rewrite H1 by (auto; lia). now rewrite Z.eqb_refl.
Qed.
End Generic.

(** the storage positions l(l+1)+m are distinct and fill 0 .. (nl+1)^2 - 1 *)
Theorem C31_positions K : 
  (forall l m, l < K -> (- Z.of_nat l <= m <= Z.of_nat l)%Z -> ci l m < K * K) /\
  (forall l m l' m', (- Z.of_nat l <= m <= Z.of_nat l)%Z -> (- Z.of_nat l' <= m' <= Z.of_nat l')%Z ->
     ci l m = ci l' m' -> l = l' /\ m = m') /\
  (forall k, k < K * K -> exists l m, l < K /\ (- Z.of_nat l <= m <= Z.of_nat l)%Z /\ ci l m = k).
Proof. repeat split; intros. now apply ci_lt. 1,2: apply ci_inj in H1; tauto. now apply ci_surj. Qed.

Local Open Scope R_scope.

(** ** C32: the coefficient loops of raise and lower satisfy the angular-momentum algebra *)
Theorem C32_ladder_algebra h s y : shapes h -> Sphr_of h s -> (Z.of_nat (s_lmax h) < 2 ^ 31)%Z ->
  length y = ((s_lmax h + 1) * (s_lmax h + 1))%nat ->
  exists yl yrl yr ylr, lower_coefs s y = Ok yl /\ raise_coefs s yl = Ok yrl /\
    raise_coefs s y = Ok yr /\ lower_coefs s yr = Ok ylr /\
    forall l m, (l < s_lmax h)%nat -> (- Z.of_nat l <= m <= Z.of_nat l)%Z ->
      let c := nth (ci l m) y (0, 0) in
      let rl := nth (ci l m) yrl (0, 0) in let lr := nth (ci l m) ylr (0, 0) in
      let Lap := - (INR l * (INR l + 1)) in
      rl = ((- Lap - IZR m * (IZR m - 1)) * fst c, (- Lap - IZR m * (IZR m - 1)) * snd c) /\
      lr = ((- Lap - IZR m * (IZR m + 1)) * fst c, (- Lap - IZR m * (IZR m + 1)) * snd c) /\
      fst rl - fst lr = 2 * IZR m * fst c /\ snd rl - snd lr = 2 * IZR m * snd c.
Proof.
  intros Hsh Hs HL Hy.
  destruct (lower_coefs_ok h s Hsh Hs y HL Hy) as (yl & El & Ll & Hl & _).
  destruct (raise_coefs_ok h s Hsh Hs yl HL ltac:(congruence)) as (yrl & Erl & Lrl & Hrl & _).
  destruct (raise_coefs_ok h s Hsh Hs y HL Hy) as (yr & Er & Lr & Hr & _).
  destruct (lower_coefs_ok h s Hsh Hs yr HL ltac:(congruence)) as (ylr & Elr & Llr & Hlr & _).
  exists yl, yrl, yr, ylr. repeat (split; [assumption|]).
  intros l m Hlt Hm c. cbv zeta.
  change (@nth (R * R)) with (@nth (cplx R)) in *. change (0, 0) with (@c0 R _) in *. 
  assert (E1 : nth (ci l m) yrl c0 = ((IZR ((Z.of_nat l - m + 1) * (Z.of_nat l + m))) * fst c, (IZR ((Z.of_nat l - m + 1) * (Z.of_nat l + m))) * snd c)).
  { rewrite Hrl by auto. destruct (Z.eqb_spec m (- Z.of_nat l)) as [->|Hne].
    - unfold c0, f0. cbn. replace ((Z.of_nat l - - Z.of_nat l + 1) * (Z.of_nat l + - Z.of_nat l))%Z with 0%Z by ring.
      f_equal; ring.
    - rewrite Hl by (auto; lia). destruct (Z.eqb_spec (m - 1) (Z.of_nat l)); [lia|].
      replace (m - 1 + 1)%Z with m by ring. fold c.
      assert (Q : rfac l m * lfac l (m - 1) = IZR ((Z.of_nat l - m + 1) * (Z.of_nat l + m))).
      { unfold rfac, lfac. cbn [R_arith fpowh fofZ].
        replace ((Z.of_nat l + (m - 1) + 1) * (Z.of_nat l - (m - 1)))%Z with ((Z.of_nat l - m + 1) * (Z.of_nat l + m))%Z by ring.
        apply sqrt_sqrt. apply IZR_le. nia. }
      rewrite <- Q. unfold cscale. cbn [R_arith fmul fst snd]. f_equal; ring. }
  assert (E2 : nth (ci l m) ylr c0 = ((IZR ((Z.of_nat l + m + 1) * (Z.of_nat l - m))) * fst c, (IZR ((Z.of_nat l + m + 1) * (Z.of_nat l - m))) * snd c)).
  { rewrite Hlr by auto. destruct (Z.eqb_spec m (Z.of_nat l)) as [->|Hne].
    - unfold c0, f0. cbn. replace ((Z.of_nat l + Z.of_nat l + 1) * (Z.of_nat l - Z.of_nat l))%Z with 0%Z by ring.
      f_equal; ring.
    - rewrite Hr by (auto; lia). destruct (Z.eqb_spec (m + 1) (- Z.of_nat l)); [lia|].
      replace (m + 1 - 1)%Z with m by ring. fold c.
      assert (Q : lfac l m * rfac l (m + 1) = IZR ((Z.of_nat l + m + 1) * (Z.of_nat l - m))).
      { unfold rfac, lfac. cbn [R_arith fpowh fofZ].
        replace ((Z.of_nat l - (m + 1) + 1) * (Z.of_nat l + (m + 1)))%Z with ((Z.of_nat l + m + 1) * (Z.of_nat l - m))%Z by ring.
        apply sqrt_sqrt. apply IZR_le. nia. }
      rewrite <- Q. unfold cscale. cbn [R_arith fmul fst snd]. f_equal; ring. }
  rewrite E1, E2. cbn [fst snd]. rewrite !mult_IZR, !plus_IZR, !minus_IZR, <- !INR_IZR_INZ.
  replace (IZR 1) with 1 by reflexivity.
  repeat split; try ring; f_equal; ring.
Qed.

(** ** C33 *)
(** sums over -l..l in pairs *)
Lemma msum_pairs l t : msum l t = t 0%Z + Rsum l (fun i => t (Z.of_nat (S i)) + t (- Z.of_nat (S i))%Z).
Proof.
  unfold msum. replace (2 * l + 1)%nat with (l + (S l))%nat by lia. rewrite Rsum_split, Rsum_shift.
  replace (Z.of_nat (l + 0) - Z.of_nat l)%Z with 0%Z by lia.
  rewrite (Rsum_rev l (fun i => t (Z.of_nat i - Z.of_nat l)%Z)).
  rewrite (Rsum_ext l (fun i => t (Z.of_nat (l - 1 - i) - Z.of_nat l)%Z) (fun i => t (- Z.of_nat (S i))%Z)).
  2:{ intros i Hi. f_equal. lia. }
  rewrite (Rsum_ext l (fun i => t (Z.of_nat (l + S i) - Z.of_nat l)%Z) (fun i => t (Z.of_nat (S i)))).
  2:{ intros i Hi. f_equal. lia. }
  rewrite Rsum_add. ring.
Qed.
Lemma msum_opp l t : msum l (fun m => t (- m)%Z) = msum l t.
Proof. rewrite !msum_pairs. f_equal. apply Rsum_ext. intros i _. rewrite Z.opp_involutive. ring. Qed.
Lemma msum_ext l t u : (forall m, (- Z.of_nat l <= m <= Z.of_nat l)%Z -> t m = u m) -> msum l t = msum l u.
Proof. intros H. unfold msum. apply Rsum_ext. intros k Hk. apply H. lia. Qed.
Lemma msum_add l t u : msum l (fun m => t m + u m) = msum l t + msum l u.
Proof. apply Rsum_add. Qed.
Lemma msum_scal l x t : msum l (fun m => x * t m) = x * msum l t.
Proof. apply Rsum_scal. Qed.

Definition sgm (m : Z) : R := if Z.even m then 1 else -1.
Lemma sgm_sq m : sgm m * sgm m = 1.
Proof. unfold sgm. destruct (Z.even m); ring. Qed.
Lemma sgm_opp m : sgm (- m) = sgm m.
Proof. unfold sgm. now rewrite Z.even_opp. Qed.
Lemma sgm_succ m : sgm (m + 1) = - sgm m.
Proof. unfold sgm. rewrite Z.even_add. simpl. destruct (Z.even m); simpl; ring. Qed.
Lemma prof_pos P l m th : (0 <= m)%Z -> prof P l m th = P l (Z.abs_nat m) th.
Proof. intros H. unfold prof. destruct (Z.ltb_spec m 0); [lia|]. ring. Qed.
Lemma prof_neg P l m th : prof P l (- m) th = sgm m * prof P l m th.
Proof.
  unfold prof. rewrite Z.even_opp. replace (Z.abs_nat (- m)) with (Z.abs_nat m) by lia. fold (sgm m).
  destruct (Z.ltb_spec (- m) 0), (Z.ltb_spec m 0); try lia; try ring.
  - rewrite <- Rmult_assoc, sgm_sq. ring.
  - assert (m = 0%Z) by lia. subst. unfold sgm. simpl. ring.
Qed.
Lemma both_pos a l m : (0 <= m)%Z -> both_signs a l m = a l (Z.abs_nat m).
Proof. intros H. unfold both_signs. destruct (Z.ltb_spec m 0); [lia|]. auto. Qed.
Lemma both_neg a l m : real_spectrum a ->
  both_signs a l (- m)%Z = (sgm m * fst (both_signs a l m), - sgm m * snd (both_signs a l m)).
Proof.
  intros Ha. unfold both_signs. rewrite Z.even_opp. replace (Z.abs_nat (- m)) with (Z.abs_nat m) by lia. fold (sgm m).
  unfold sgm. destruct (Z.ltb_spec (- m) 0), (Z.ltb_spec m 0); try lia.
  - destruct (Z.even m); cbn; f_equal; ring.
  - destruct (Z.even m); cbn; destruct (a l (Z.abs_nat m)); cbn; f_equal; ring.
  - assert (m = 0%Z) by lia. subst. cbn. rewrite Ha. destruct (a l 0%nat) eqn:E; cbn.
    specialize (Ha l). rewrite E in Ha. cbn in Ha. subst. f_equal; ring.
Qed.

Section SphereX.
Variables (b : build) (h : sht R) (P : profiles) (s : sphere R).
Hypothesis Hlaw : lawful b h P.
Hypothesis Hcl : clawful b h P.
Hypothesis Hs : Sphr_of h s.
Hypothesis HL31 : (Z.of_nat (s_lmax h) < 2 ^ 31)%Z.
Local Notation L := (s_lmax h).
Local Notation N := (s_nlat h * s_nphi h)%nat.

Lemma cre_ext a a' th ph : (forall l m, (l <= L)%nat -> (- Z.of_nat l <= m <= Z.of_nat l)%Z -> a l m = a' l m) ->
  cre P L a th ph = cre P L a' th ph /\ cim P L a th ph = cim P L a' th ph.
Proof.
  intros H. split; unfold cre, cim; apply Rsum_ext; intros l Hl; apply msum_ext; intros m Hm; rewrite H by (auto; lia); auto.
Qed.
Lemma cre_add a a' th ph :
  cre P L (fun l m => (fst (a l m) + fst (a' l m), snd (a l m) + snd (a' l m))) th ph = cre P L a th ph + cre P L a' th ph /\
  cim P L (fun l m => (fst (a l m) + fst (a' l m), snd (a l m) + snd (a' l m))) th ph = cim P L a th ph + cim P L a' th ph.
Proof.
  split; unfold cre, cim; rewrite <- Rsum_add; apply Rsum_ext; intros l Hl; rewrite <- msum_add;
    apply msum_ext; intros m Hm; cbn [fst snd]; ring.
Qed.

(** a real function and its complex representation *)
Lemma cre_real a th ph : real_spectrum a -> cre P L (both_signs a) th ph = real_field P L L a th ph.
Proof.
  intros Ha. unfold cre, real_field. apply Rsum_ext. intros l Hl. rewrite msum_pairs.
  rewrite Nat.min_l by lia. rewrite Nat.add_1_r, Rsum_shift. f_equal.
  - rewrite prof_pos, both_pos by lia. unfold mode. cbn [Z.abs_nat Nat.eqb]. rewrite Rmult_0_l, cos_0, sin_0. ring.
  - apply Rsum_ext. intros i Hi. set (m := Z.of_nat (S i)).
    rewrite (both_neg a l m Ha), prof_neg, opp_IZR.
    replace (- IZR m * ph) with (- (IZR m * ph)) by ring. rewrite cos_neg, sin_neg. cbn [fst snd].
    rewrite prof_pos, both_pos by (unfold m; lia).
    replace (Z.abs_nat m) with (S i) by (unfold m; lia). unfold mode. cbn [Nat.eqb].
    replace (IZR m) with (INR (S i)) by (unfold m; now rewrite INR_IZR_INZ).
    transitivity (P l (S i) th * (fst (a l (S i)) * cos (INR (S i) * ph) - snd (a l (S i)) * sin (INR (S i) * ph))
      + sgm m * sgm m * (P l (S i) th * (fst (a l (S i)) * cos (INR (S i) * ph) - snd (a l (S i)) * sin (INR (S i) * ph)))); [ring|].
    rewrite sgm_sq. ring.
Qed.
Lemma cim_real a th ph : real_spectrum a -> cim P L (both_signs a) th ph = 0.
Proof.
  intros Ha. unfold cim. apply Rsum_zero. intros l Hl. rewrite msum_pairs.
  rewrite both_pos by lia. cbn [Z.abs_nat]. rewrite (Ha l), Rmult_0_l, sin_0.
  rewrite Rsum_zero; [ring|]. intros i Hi. set (m := Z.of_nat (S i)).
  rewrite (both_neg a l m Ha), prof_neg, opp_IZR.
  replace (- IZR m * ph) with (- (IZR m * ph)) by ring. rewrite cos_neg, sin_neg. cbn [fst snd].
  transitivity (prof P l m th * (fst (both_signs a l m) * sin (IZR m * ph) + snd (both_signs a l m) * cos (IZR m * ph))
    * (1 - sgm m * sgm m)); [ring|]. rewrite sgm_sq. ring.
Qed.

Lemma embed_sampled a v : real_spectrum a -> sampled b h (real_field P L L a) v ->
  csampled b h (cre P L (both_signs a)) (cim P L (both_signs a)) (embed v).
Proof.
  intros Ha [Lv Hv]. split; [etransitivity; [apply embed_length|exact Lv]|]. intros it ip Ht Hp.
  rewrite cre_real, cim_real by auto. rewrite <- (Hv it ip Ht Hp).
  exact (map_nth (fun x : R => (x, 0)) v 0 (spos b h it ip)).
Qed.
Lemma anc_of a v : real_spectrum a -> sampled b h (real_field P L L a) v -> cstores h (s_anc h (embed v)) (both_signs a).
Proof.
  intros Ha Hv. destruct (cpack h (both_signs a)) as (c & Hc).
  pose proof (cl_syn b h P Hcl c _ Hc) as Hc'.
  rewrite (csampled_unique b h _ _ _ _ (embed_sampled a v Ha Hv) Hc'), (cl_ana b h P Hcl c _ Hc). auto.
Qed.

(** the spectrum of L+ f below the edge *)
Definition raised (a : spectrum) : cspectrum := fun l m =>
  if (l <? L)%nat && negb (m =? - Z.of_nat l)%Z
  then let c := both_signs a l (m - 1) in let k := sqrt (IZR ((Z.of_nat l - m + 1) * (Z.of_nat l + m))) in (k * fst c, k * snd c)
  else (0, 0).
Definition lowered (a : spectrum) : cspectrum := fun l m =>
  if (l <? L)%nat && negb (m =? Z.of_nat l)%Z
  then let c := both_signs a l (m + 1) in let k := sqrt (IZR ((Z.of_nat l + m + 1) * (Z.of_nat l - m))) in (k * fst c, k * snd c)
  else (0, 0).
(** the edge part (degree nl) of the spectrum, and what remains *)
Definition edge (a : spectrum) : spectrum := fun l m => if Nat.eqb l L then a l m else (0, 0).
Definition below (a : spectrum) : spectrum := fun l m => if Nat.eqb l L then (0, 0) else a l m.
Lemma edge_real a : real_spectrum a -> real_spectrum (edge a).
Proof. intros Ha l. unfold edge. destruct (Nat.eqb l L); cbn; auto. Qed.
Lemma below_real a : real_spectrum a -> real_spectrum (below a).
Proof. intros Ha l. unfold below. destruct (Nat.eqb l L); cbn; auto. Qed.
Lemma edge_both a l m : both_signs (edge a) l m = if Nat.eqb l L then both_signs a l m else (0, 0).
Proof.
  unfold both_signs, edge. destruct (Nat.eqb l L); auto. cbn. destruct (m <? 0)%Z; auto. destruct (Z.even m); cbn; f_equal; ring.
Qed.

(** conjugation: L- f = - conj (L+ f) *)
Lemma lowered_conj a th ph : real_spectrum a ->
  cre P L (lowered a) th ph = - cre P L (raised a) th ph /\ cim P L (lowered a) th ph = cim P L (raised a) th ph.
Proof.
  intros Ha.
  assert (G : forall l m, lowered a l m = (- (sgm m * fst (raised a l (- m)%Z)), sgm m * snd (raised a l (- m)%Z))).
  { intros l m. unfold lowered, raised.
    replace (- m =? - Z.of_nat l)%Z with (m =? Z.of_nat l)%Z.
    2:{ destruct (Z.eqb_spec m (Z.of_nat l)), (Z.eqb_spec (- m) (- Z.of_nat l)); lia. }
    destruct (_ && _); cbn [fst snd]; [|f_equal; ring].
    replace (- m - 1)%Z with (- (m + 1))%Z by ring. rewrite (both_neg a l (m + 1) Ha), sgm_succ. cbn [fst snd].
    replace ((Z.of_nat l - - m + 1) * (Z.of_nat l + - m))%Z with ((Z.of_nat l + m + 1) * (Z.of_nat l - m))%Z by ring.
    set (k := sqrt _). set (x := both_signs a l (m + 1)).
    f_equal; [transitivity (k * fst x * (sgm m * sgm m)); [rewrite sgm_sq; ring|ring]
             |transitivity (k * snd x * (sgm m * sgm m)); [rewrite sgm_sq; ring|ring]]. }
  assert (Q : forall l m th, sgm m * prof P l m th = prof P l (- m) th) by (intros; now rewrite prof_neg).
  split.
  - unfold cre. replace (- Rsum (L + 1) (fun l => msum l (fun m => prof P l m th * (fst (raised a l m) * cos (IZR m * ph) - snd (raised a l m) * sin (IZR m * ph)))))
      with (Rsum (L + 1) (fun l => msum l (fun m => - (prof P l m th * (fst (raised a l m) * cos (IZR m * ph) - snd (raised a l m) * sin (IZR m * ph)))))).
    2:{ rewrite <- (Rmult_1_l (Rsum (L + 1) (fun l => msum l (fun m => prof P l m th * _)))), <- Ropp_mult_distr_l_reverse, <- Rsum_scal.
        apply Rsum_ext. intros l _. rewrite <- msum_scal. apply msum_ext. intros m _. ring. }
    apply Rsum_ext. intros l Hl.
    rewrite <- (msum_opp l (fun m => - _)). apply msum_ext. intros m Hm. rewrite (G l m), <- Q, opp_IZR. cbn [fst snd].
    replace (- IZR m * ph) with (- (IZR m * ph)) by ring. rewrite cos_neg, sin_neg. ring.
  - unfold cim. apply Rsum_ext. intros l Hl.
    rewrite <- (msum_opp l (fun m => prof P l m th * (fst (raised a l m) * _ + _))).
    apply msum_ext. intros m Hm. rewrite (G l m), <- Q, opp_IZR. cbn [fst snd].
    replace (- IZR m * ph) with (- (IZR m * ph)) by ring. rewrite cos_neg, sin_neg. ring.
Qed.

Lemma raise_sampled a v r : real_spectrum a -> sampled b h (real_field P L L a) v -> length r = N ->
  exists out, raise b s v r = Ok out /\
    csampled b h (fun th ph => cre P L (raised a) th ph + real_field P L L (edge a) th ph) (cim P L (raised a)) out.
Proof.
  intros Ha Hv Hr. pose proof (lw_shapes b h P Hlaw) as Hsh.
  destruct (raise_ok b h s Hsh Hs v r HL31 (proj1 Hv) Hr) as (y & E & Ly & _ & H1 & H2).
  eexists; split; [exact E|].
  destruct (anc_of a v Ha Hv) as [_ Hst].
  set (t := fun l m => (fst (raised a l m) + fst (both_signs (edge a) l m), snd (raised a l m) + snd (both_signs (edge a) l m))).
  assert (Hst2 : cstores h y t).
  { split; auto. intros l m Hl Hm. unfold t. rewrite edge_both. unfold raised.
    destruct (Nat.eqb_spec l L) as [->|Hne].
    - rewrite Nat.ltb_irrefl. cbn [andb fst snd]. etransitivity; [exact (H2 m Hm)|].
      etransitivity; [exact (Hst L m Hl Hm)|]. destruct (both_signs a L m); cbn; f_equal; ring.
    - etransitivity; [exact (H1 l m ltac:(lia) Hm)|].
      destruct (Nat.ltb_spec l L); [|lia]. cbn [andb].
      destruct (Z.eqb_spec m (- Z.of_nat l)) as [->|Hne2]; cbn [negb fst snd].
      + unfold c0, f0. cbn. f_equal; ring.
      + assert (E1 : nth (ci l (m - 1)) (s_anc h (embed v)) c0 = both_signs a l (m - 1)) by (apply Hst; lia).
        rewrite E1. unfold cscale, rfac. cbn [R_arith fmul fpowh fofZ]. f_equal; ring. }
  pose proof (cl_syn b h P Hcl y t Hst2) as [Lo Ho]. split; auto. intros it ip Ht Hp. rewrite Ho by auto.
  pose proof (cre_add (raised a) (both_signs (edge a)) (grid_theta h it) (grid_phi h ip)) as [Ea Eb].
  fold t in Ea, Eb. rewrite Ea, Eb. clear Ea Eb.
  rewrite cre_real, cim_real by now apply edge_real. f_equal; ring.
Qed.
Lemma lower_sampled a v r : real_spectrum a -> sampled b h (real_field P L L a) v -> length r = N ->
  exists out, lower b s v r = Ok out /\
    csampled b h (fun th ph => - cre P L (raised a) th ph + real_field P L L (edge a) th ph) (cim P L (raised a)) out.
Proof.
  intros Ha Hv Hr. pose proof (lw_shapes b h P Hlaw) as Hsh.
  destruct (lower_ok b h s Hsh Hs v r HL31 (proj1 Hv) Hr) as (y & E & Ly & _ & H1 & H2).
  eexists; split; [exact E|].
  destruct (anc_of a v Ha Hv) as [_ Hst].
  set (t := fun l m => (fst (lowered a l m) + fst (both_signs (edge a) l m), snd (lowered a l m) + snd (both_signs (edge a) l m))).
  assert (Hst2 : cstores h y t).
  { split; auto. intros l m Hl Hm. unfold t. rewrite edge_both. unfold lowered.
    destruct (Nat.eqb_spec l L) as [->|Hne].
    - rewrite Nat.ltb_irrefl. cbn [andb fst snd]. etransitivity; [exact (H2 m Hm)|].
      etransitivity; [exact (Hst L m Hl Hm)|]. destruct (both_signs a L m); cbn; f_equal; ring.
    - etransitivity; [exact (H1 l m ltac:(lia) Hm)|].
      destruct (Nat.ltb_spec l L); [|lia]. cbn [andb].
      destruct (Z.eqb_spec m (Z.of_nat l)) as [->|Hne2]; cbn [negb fst snd].
      + unfold c0, f0. cbn. f_equal; ring.
      + assert (E1 : nth (ci l (m + 1)) (s_anc h (embed v)) c0 = both_signs a l (m + 1)) by (apply Hst; lia).
        rewrite E1. unfold cscale, lfac. cbn [R_arith fmul fpowh fofZ]. f_equal; ring. }
  pose proof (cl_syn b h P Hcl y t Hst2) as [Lo Ho]. split; auto. intros it ip Ht Hp. rewrite Ho by auto.
  pose proof (cre_add (lowered a) (both_signs (edge a)) (grid_theta h it) (grid_phi h ip)) as [Ea Eb].
  fold t in Ea, Eb. rewrite Ea, Eb. clear Ea Eb.
  rewrite cre_real, cim_real by now apply edge_real.
  destruct (lowered_conj a (grid_theta h it) (grid_phi h ip) Ha) as [-> ->]. f_equal; ring.
Qed.

(** What sphereX returns for every real resolved function f = g + e, e its degree-nl part:
    |L+ g|^2 + (dg/dphi)^2 + 2 e dg/dphi. *)
Theorem C33_sphereX_general a v x :
  real_spectrum a -> sampled b h (real_field P L L a) v -> length x = N ->
  exists out, sphereX b s v x = Ok out /\
    sampled b h (fun th ph =>
      let gphi := Derive (real_field P L L (below a) th) ph in
      cre P L (raised a) th ph ^ 2 + cim P L (raised a) th ph ^ 2 + gphi ^ 2
      + 2 * real_field P L L (edge a) th ph * gphi) out.
Proof.
  intros Ha Hv Hx. pose proof (lw_shapes b h P Hlaw) as Hsh. pose proof (cl_mmax b h P Hcl) as HM.
  destruct (sphereX_ok b h s Hsh Hs v x HL31 (proj1 Hv) Hx) as (rv & lv & dp & out & Er & El & Ed & Eo & Lo & Lr & Ll & Ld & Ho).
  destruct (raise_sampled a v (vec N c0) Ha Hv (vec_length _ _)) as (rv' & Er' & Hr).
  destruct (lower_sampled a v (vec N c0) Ha Hv (vec_length _ _)) as (lv' & El' & Hl).
  assert (Hv2 : sampled b h (real_field P L (s_mmax h) a) v) by (rewrite HM; auto).
  destruct (dphi_R b h P s Hlaw Hs a v (vec N f0) Ha Hv2 (vec_length _ _)) as (dp' & Ed' & Hd).
  rewrite Er in Er'. injection Er' as <-. rewrite El in El'. injection El' as <-. rewrite Ed in Ed'. injection Ed' as <-.
  exists out. split; auto. split; auto. intros it ip Ht Hp.
  assert (Hi : (spos b h it ip < N)%nat) by now apply ix_th_ph_lt.
  change 0 with (@f0 R _) at 1. rewrite Ho by auto.
  assert (E1 : nth (A := cplx R) (spos b h it ip) rv c0 = _) by (apply (proj2 Hr); auto).
  assert (E2 : nth (A := cplx R) (spos b h it ip) lv c0 = _) by (apply (proj2 Hl); auto).
  assert (E3 : nth (spos b h it ip) dp f0 = _) by (apply (proj2 Hd); auto).
  rewrite E1, E2, E3. clear E1 E2 E3. cbn [cmul fst snd R_arith fadd fsub fmul fopp fpow].
  set (th := grid_theta h it). set (ph := grid_phi h ip).
  pose proof (is_derive_unique _ _ _ (field_derive h P (below a) th ph)) as ED. rewrite HM in ED. rewrite ED.
  set (g := real_field P L L (fun l m => (- INR m * snd (below a l m), INR m * fst (below a l m))) th ph).
  set (e := real_field P L L (edge a) th ph).
  replace (real_field P L (s_mmax h) _ th ph) with (g + e).
  - cbv zeta. ring.
  - rewrite HM. unfold g, e.
    pose proof (field_lin h P (fun l m => (- INR m * snd (below a l m), INR m * fst (below a l m))) (edge a) 1 1 th ph) as EL.
    rewrite HM in EL. rewrite !Rmult_1_l in EL. rewrite <- EL.
    pose proof (real_field_ext h P) as EX. rewrite HM in EX. apply EX. intros l m Hl2 Hm2 HM2. unfold below, edge.
    destruct (Nat.eqb_spec l L) as [->|Hne].
    + rewrite Nat.ltb_irrefl. cbn. destruct (a L m); cbn; f_equal; ring.
    + destruct (Nat.ltb_spec l L), (Nat.ltb_spec m L); cbn [andb fst snd]; try lia. f_equal; ring.
Qed.

(** no degree-nl content: a non-negative squared gradient *)
Theorem C33_nonnegative a v x :
  real_spectrum a -> (forall m, a L m = (0, 0)) -> sampled b h (real_field P L L a) v -> length x = N ->
  exists out, sphereX b s v x = Ok out /\
    sampled b h (fun th ph => cre P L (raised a) th ph ^ 2 + cim P L (raised a) th ph ^ 2
                              + Derive (real_field P L L a th) ph ^ 2) out /\
    forall i, 0 <= nth i out 0.
Proof.
  intros Ha H0 Hv Hx. destruct (C33_sphereX_general a v x Ha Hv Hx) as (out & E & Ho).
  pose proof (cl_mmax b h P Hcl) as HM. pose proof (real_field_ext h P) as EX. rewrite HM in EX.
  assert (Hs2 : sampled b h (fun th ph => cre P L (raised a) th ph ^ 2 + cim P L (raised a) th ph ^ 2
                              + Derive (real_field P L L a th) ph ^ 2) out).
  { eapply sampled_ext; [|exact Ho]. intros th ph. cbv zeta beta.
    replace (real_field P L L (edge a) th ph) with 0.
    - rewrite (Derive_ext (real_field P L L (below a) th) (real_field P L L a th)).
      + ring.
      + intros q. apply EX. intros l m _ _ _. unfold below. destruct (Nat.eqb_spec l L) as [->|]; auto.
    - symmetry. unfold real_field. apply Rsum_zero. intros l _. apply Rsum_zero. intros m _. unfold edge, mode.
      destruct (Nat.eqb_spec l L) as [->|]; [rewrite H0|]; cbn; destruct (Nat.eqb m 0); ring. }
  exists out. split; auto. split; auto. intros i. destruct (lt_dec i N) as [Hi|Hi].
  - destruct (sampled_nth b h _ out i Hs2 Hi) as (it & ip & _ & _ & _ & ->). nra.
  - rewrite nth_overflow by (rewrite (proj1 Hs2); lia). lra.
Qed.

(** the product L+ f L- f is real on such data: L- f = - conj(L+ f) *)
Theorem C33_product_real a v r r' :
  real_spectrum a -> (forall m, a L m = (0, 0)) -> sampled b h (real_field P L L a) v -> length r = N -> length r' = N ->
  exists rv lv, raise b s v r = Ok rv /\ lower b s v r' = Ok lv /\
    forall i, (i < N)%nat -> nth i lv (0, 0) = (- fst (nth i rv (0, 0)), snd (nth i rv (0, 0))) /\
      snd (cmul (nth i rv (0, 0)) (nth i lv (0, 0))) = 0 /\
      - fst (cmul (nth i rv (0, 0)) (nth i lv (0, 0))) = fst (nth i rv (0, 0)) ^ 2 + snd (nth i rv (0, 0)) ^ 2.
Proof.
  intros Ha H0 Hv Hr Hr'.
  destruct (raise_sampled a v r Ha Hv Hr) as (rv & Er & Sr). destruct (lower_sampled a v r' Ha Hv Hr') as (lv & El & Sl).
  exists rv, lv. split; auto. split; auto. intros i Hi.
  assert (Ez : forall th ph, real_field P L L (edge a) th ph = 0).
  { intros. unfold real_field. apply Rsum_zero. intros l _. apply Rsum_zero. intros m _. unfold edge, mode.
    destruct (Nat.eqb_spec l L) as [->|]; [rewrite H0|]; cbn; destruct (Nat.eqb m 0); ring. }
  destruct (csampled_nth b h _ _ rv i Sr Hi) as (it & ip & Ht & Hp & Epos & E1).
  assert (E2 : nth (A := cplx R) i lv (0, 0) = _) by (rewrite <- Epos; exact (proj2 Sl it ip Ht Hp)).
  change (nth (A := cplx R) i rv (0, 0) = (cre P L (raised a) (grid_theta h it) (grid_phi h ip)
    + real_field P L L (edge a) (grid_theta h it) (grid_phi h ip), cim P L (raised a) (grid_theta h it) (grid_phi h ip))) in E1.
  rewrite E1, E2, !Ez. cbn [fst snd cmul R_arith fadd fsub fmul].
  repeat split; try ring. f_equal; ring.
Qed.

(** data that consist of degree nl only: sphereX is identically 0, whatever the gradient *)
Theorem C33_edge_returns_zero a v x :
  real_spectrum a -> (forall l m, l <> L -> a l m = (0, 0)) -> sampled b h (real_field P L L a) v -> length x = N ->
  sphereX b s v x = Ok (vec N 0).
Proof.
  intros Ha H0 Hv Hx. destruct (C33_sphereX_general a v x Ha Hv Hx) as (out & E & Ho). rewrite E. f_equal.
  assert (Zb : forall th q, real_field P L L (below a) th q = 0).
  { intros. unfold real_field. apply Rsum_zero. intros l _. apply Rsum_zero. intros m _. unfold below, mode.
    destruct (Nat.eqb_spec l L) as [->|]; [|rewrite H0 by auto]; cbn; destruct (Nat.eqb m 0); ring. }
  assert (Zr : forall l m, raised a l m = (0, 0)).
  { intros l m. unfold raised. destruct (Nat.ltb_spec l L); cbn [andb]; auto. destruct (negb _); auto.
    unfold both_signs. rewrite !(H0 l) by lia. destruct (_ <? 0)%Z; [destruct (Z.even _)|]; cbn; f_equal; ring. }
  apply (nth_ext _ _ 0 0); [rewrite (proj1 Ho), vec_length; auto|]. intros i Hi. rewrite (proj1 Ho) in Hi.
  rewrite nth_vec by auto. destruct (sampled_nth b h _ out i Ho Hi) as (it & ip & _ & _ & _ & ->). cbv zeta.
  rewrite (Derive_ext _ (fun _ => 0)) by apply Zb. rewrite Derive_const.
  destruct (cre_ext (raised a) (fun _ _ => (0, 0)) (grid_theta h it) (grid_phi h ip)) as [-> ->]; [intros; apply Zr|].
  assert (Zc : forall th ph, cre P L (fun _ _ => (0, 0)) th ph = 0 /\ cim P L (fun _ _ => (0, 0)) th ph = 0).
  { intros. split; unfold cre, cim; apply Rsum_zero; intros l _; apply Rsum_zero; intros k _; cbn; ring. }
  destruct (Zc (grid_theta h it) (grid_phi h ip)) as [-> ->]. ring.
Qed.

(** with degree-nl content sphereX can be negative: wherever the rest has a phi-derivative and the
    edge part does not vanish, a multiple of the edge part makes it so *)
Theorem C33_negative_at_edge_refuted a it ip :
  real_spectrum a -> (it < s_nlat h)%nat -> (ip < s_nphi h)%nat ->
  Derive (real_field P L L (below a) (grid_theta h it)) (grid_phi h ip) <> 0 ->
  real_field P L L (edge a) (grid_theta h it) (grid_phi h ip) <> 0 ->
  exists t : R, forall v x, length x = N ->
    sampled b h (real_field P L L (fun l m => if Nat.eqb l L then (t * fst (a l m), t * snd (a l m)) else a l m)) v ->
    exists out, sphereX b s v x = Ok out /\ nth (spos b h it ip) out 0 < 0.
Proof.
  intros Ha Ht Hp Hg He. set (th := grid_theta h it) in *. set (ph := grid_phi h ip) in *.
  set (g := Derive _ ph) in *. set (e := real_field P L L (edge a) th ph) in *.
  set (K := cre P L (raised a) th ph ^ 2 + cim P L (raised a) th ph ^ 2 + g ^ 2).
  exists (- (K + 1) / (2 * e * g)). set (t := - (K + 1) / (2 * e * g)). intros v x Hx Hv.
  set (a' := fun l m => if Nat.eqb l L then (t * fst (a l m), t * snd (a l m)) else a l m) in *.
  assert (Ha' : real_spectrum a').
  { intros l. unfold a'. destruct (Nat.eqb l L); cbn; auto. rewrite Ha. ring. }
  destruct (C33_sphereX_general a' v x Ha' Hv Hx) as (out & E & Ho).
  exists out. split; auto. rewrite (proj2 Ho) by auto. cbv zeta. fold th ph.
  pose proof (cl_mmax b h P Hcl) as HM. pose proof (real_field_ext h P) as EX. rewrite HM in EX.
  rewrite (Derive_ext _ (real_field P L L (below a) th)).
  2:{ intros q. apply EX. intros l m _ _ _. unfold below, a'. destruct (Nat.eqb l L); auto. }
  fold g.
  replace (real_field P L L (edge a') th ph) with (t * e).
  2:{ pose proof (field_lin h P (edge a) (fun _ _ => (0, 0)) t 0 th ph) as EL. rewrite HM in EL. fold e in EL.
      transitivity (t * e + 0 * real_field P L L (fun _ _ => (0, 0)) th ph); [ring|]. rewrite <- EL. apply EX. intros l m _ _ _. unfold edge, a'.
      destruct (Nat.eqb l L); cbn; f_equal; ring. }
  destruct (cre_ext (raised a') (raised a) th ph) as [-> ->].
  { intros l m Hl Hm. unfold raised, both_signs, a'. destruct (Nat.ltb_spec l L); cbn [andb]; auto.
    destruct (Nat.eqb_spec l L); [lia|]. auto. }
  fold K. unfold t. replace (K + 2 * (- (K + 1) / (2 * e * g) * e) * g) with (-1); [lra|]. field. split; auto.
Qed.
End SphereX.
