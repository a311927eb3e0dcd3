(** Sphere operators over the reals, under the [lawful] contract of the transforms. *)
From Coq Require Import Reals Lra.
From Coquelicot Require Import Coquelicot.
From Verif Require Import Base BaseLemmas ForList Arith MSphere PGrid PMake PSphere PSphere2 Spec SphereSpec PSum PFdR.
Local Open Scope R_scope.

Lemma is_derive_Rsum n (t dt : nat -> R -> R) x :
  (forall i, (i < n)%nat -> is_derive (t i) x (dt i x)) ->
  is_derive (fun y => Rsum n (fun i => t i y)) x (Rsum n (fun i => dt i x)).
Proof.
  induction n as [|n IH]; intros H; simpl.
  - apply @is_derive_const.
  - apply @is_derive_plus; [apply IH; auto|apply H; auto].
Qed.

Lemma spos_ix {F} b (h : sht F) it ip : spos b h it ip = MGrid.ix_th_ph b (s_nlat h) (s_nphi h) it ip.
Proof. reflexivity. Qed.

Section Samples.
Variables (b : build) (h : sht R).
Lemma sampled_unique f v w : sampled b h f v -> sampled b h f w -> v = w.
Proof.
  intros [Lv Hv] [Lw Hw]. apply (nth_ext _ _ 0 0); [congruence|]. intros k Hk. rewrite Lv in Hk.
  destruct (ix_th_ph_surj b (s_nlat h) (s_nphi h) k Hk) as (it & ip & Ht & Hp & <-).
  rewrite <- (spos_ix b h). now rewrite Hv, Hw.
Qed.
Lemma sampled_ext f g v : (forall th ph, f th ph = g th ph) -> sampled b h f v -> sampled b h g v.
Proof. intros E [Lv Hv]. split; auto. intros. now rewrite Hv. Qed.
Lemma csampled_unique re im v w : csampled b h re im v -> csampled b h re im w -> v = w.
Proof.
  intros [Lv Hv] [Lw Hw]. apply (nth_ext _ _ (0, 0) (0, 0)); [congruence|]. intros k Hk. rewrite Lv in Hk.
  destruct (ix_th_ph_surj b (s_nlat h) (s_nphi h) k Hk) as (it & ip & Ht & Hp & <-).
  rewrite <- (spos_ix b h). now rewrite Hv, Hw.
Qed.
Lemma sampled_nth f v k : sampled b h f v -> (k < s_nlat h * s_nphi h)%nat ->
  exists it ip, (it < s_nlat h)%nat /\ (ip < s_nphi h)%nat /\ spos b h it ip = k /\
    nth k v 0 = f (grid_theta h it) (grid_phi h ip).
Proof.
  intros [Lv Hv] Hk. destruct (ix_th_ph_surj b (s_nlat h) (s_nphi h) k Hk) as (it & ip & Ht & Hp & <-).
  exists it, ip. rewrite <- (spos_ix b h). auto.
Qed.
Lemma csampled_nth re im v k : csampled b h re im v -> (k < s_nlat h * s_nphi h)%nat ->
  exists it ip, (it < s_nlat h)%nat /\ (ip < s_nphi h)%nat /\ spos b h it ip = k /\
    nth k v (0, 0) = (re (grid_theta h it) (grid_phi h ip), im (grid_theta h it) (grid_phi h ip)).
Proof.
  intros [Lv Hv] Hk. destruct (ix_th_ph_surj b (s_nlat h) (s_nphi h) k Hk) as (it & ip & Ht & Hp & <-).
  exists it, ip. rewrite <- (spos_ix b h). auto.
Qed.
End Samples.

(** packing a spectrum into an array *)
Lemma pack (h : sht R) (a : spectrum) : (s_mmax h <= s_lmax h)%nat -> exists c, stores h c a.
Proof.
  intros HM. set (L := s_lmax h) in *. set (M := s_mmax h) in *.
  assert (G : forall n, (n <= nlm_calc L M)%nat -> exists c : list (R * R), length c = n /\
     forall l m, (l <= L)%nat -> (m <= l)%nat -> (m <= M)%nat -> (LM L l m < n)%nat -> nth (LM L l m) c (0, 0) = a l m).
  { induction n as [|n IH]; intros Hn.
    - exists []. split; auto. intros; lia.
    - destruct IH as (c & Lc & Hc); [lia|].
      destruct (LM_surj L M n HM ltac:(lia)) as (l0 & m0 & ? & ? & ? & E).
      exists (c ++ [a l0 m0]). split; [rewrite app_length; simpl; lia|].
      intros l m Hl Hm HmM Hlt. destruct (Nat.eq_dec (LM L l m) n) as [En|Hne].
      + rewrite En, app_nth2, Lc, Nat.sub_diag by lia. simpl.
        destruct (LM_inj L l m l0 m0) as [-> ->]; auto. lia.
      + rewrite app_nth1 by lia. apply Hc; auto. lia. }
  destruct (G (nlm_calc L M) (le_n _)) as (c & Lc & Hc).
  exists c. split; auto. intros l m Hl Hm HmM. apply Hc; auto. apply LM_lt; auto.
Qed.
Lemma ci_surj K k : (k < K * K)%nat -> exists l m, (l < K)%nat /\ (- Z.of_nat l <= m <= Z.of_nat l)%Z /\ ci l m = k.
Proof.
  induction K as [|K IH]; intros Hk; [lia|].
  destruct (lt_dec k (K * K)) as [H|H].
  - destruct (IH H) as (l & m & ? & ? & ?). exists l, m. auto.
  - exists K, (Z.of_nat k - Z.of_nat K * (Z.of_nat K + 1))%Z. repeat split; try lia.
    unfold ci. lia.
Qed.
Lemma cpack (h : sht R) (a : cspectrum) : exists c, cstores h c a.
Proof.
  set (K := (s_lmax h + 1)%nat).
  assert (G : forall n, (n <= K * K)%nat -> exists c : list (R * R), length c = n /\
     forall l m, (l < K)%nat -> (- Z.of_nat l <= m <= Z.of_nat l)%Z -> (ci l m < n)%nat -> nth (ci l m) c (0, 0) = a l m).
  { induction n as [|n IH]; intros Hn.
    - exists []. split; auto. intros; lia.
    - destruct IH as (c & Lc & Hc); [lia|].
      destruct (ci_surj K n ltac:(lia)) as (l0 & m0 & ? & ? & E).
      exists (c ++ [a l0 m0]). split; [rewrite app_length; simpl; lia|].
      intros l m Hl Hm Hlt. destruct (Nat.eq_dec (ci l m) n) as [En|Hne].
      + rewrite En, app_nth2, Lc, Nat.sub_diag by lia. simpl.
        destruct (ci_inj l m l0 m0) as [-> ->]; auto. lia.
      + rewrite app_nth1 by lia. apply Hc; auto. lia. }
  destruct (G (K * K)%nat (le_n _)) as (c & Lc & Hc).
  exists c. split; auto. intros l m Hl Hm. apply Hc; auto; [unfold K; lia|]. apply ci_lt; unfold K; lia.
Qed.

Section Ops.
Variables (b : build) (h : sht R) (P : profiles) (s : sphere R).
Hypothesis Hlaw : lawful b h P.
Hypothesis Hs : Sphere_make h (s_lmax h) (s_mmax h) (s_nlat h) (s_nphi h) = Ok s.
Local Notation L := (s_lmax h).
Local Notation M := (s_mmax h).
Let Hsh : shapes h := lw_shapes b h P Hlaw.
Let field := real_field P L M.

Lemma ana_of a v : real_spectrum a -> sampled b h (field a) v -> stores h (s_an h v) a.
Proof.
  intros Ha Hv. destruct (pack h a (sh_mmax h Hsh)) as (c & Hc).
  pose proof (lw_syn b h P Hlaw c a Hc) as Hc'.
  rewrite (sampled_unique b h _ v _ Hv Hc'), (lw_ana b h P Hlaw c a) by auto. auto.
Qed.

Lemma lm_sampled a v y (hh : nat -> nat -> (R * R) -> (R * R)) : real_spectrum a -> sampled b h (field a) v ->
  length y = nlm_calc L M ->
  (forall l m, (l <= L)%nat -> (m <= l)%nat -> (m <= M)%nat ->
      nth (LM L l m) y c0 = if (l <? L)%nat && (m <? M)%nat then hh l m (nth (LM L l m) (s_an h v) c0) else nth (LM L l m) (s_an h v) c0) ->
  sampled b h (field (fun l m => if (l <? L)%nat && (m <? M)%nat then hh l m (a l m) else a l m)) (s_sy h y).
Proof.
  intros Ha Hv Ly Hy. apply (lw_syn b h P Hlaw). split; auto. intros l m Hl Hm HM.
  destruct (ana_of a v Ha Hv) as [_ Hst]. change (0, 0) with (@c0 R _) in *. rewrite Hy, Hst by auto. reflexivity.
Qed.

Lemma real_field_ext a a' th ph : (forall l m, (l <= L)%nat -> (m <= l)%nat -> (m <= M)%nat -> a l m = a' l m) -> field a th ph = field a' th ph.
Proof.
  intros H. unfold field, real_field. apply Rsum_ext. intros l Hl. apply Rsum_ext. intros m Hm.
  rewrite H by lia. reflexivity.
Qed.

Lemma laplace_R a v d : real_spectrum a -> sampled b h (field a) v -> length d = (s_nlat h * s_nphi h)%nat ->
  exists out, laplace_beltrami b s v d = Ok out /\
    sampled b h (field (fun l m => if (l <? L)%nat && (m <? M)%nat
       then (- INR l * (INR l + 1) * fst (a l m), - INR l * (INR l + 1) * snd (a l m)) else a l m)) out.
Proof.
  intros Ha Hv Hd. destruct (laplace_ok b h s Hsh Hs v d) as (y & E & Ly & _ & Hy); auto; [apply Hv|].
  eexists; split; [exact E|].
  eapply sampled_ext; [|apply (lm_sampled a v y (fun l m c => cmulr c (lapf l)) Ha Hv Ly Hy)].
  intros th ph. apply real_field_ext. intros l m _ _ _. destruct (_ && _); auto.
  unfold cmulr, lapf. cbn [R_arith fmul fopp fadd fofZ]. rewrite fnat_INR. f_equal; ring.
Qed.
Lemma dphi_R a v d : real_spectrum a -> sampled b h (field a) v -> length d = (s_nlat h * s_nphi h)%nat ->
  exists out, partial_phi b s v d = Ok out /\
    sampled b h (field (fun l m => if (l <? L)%nat && (m <? M)%nat
       then (- INR m * snd (a l m), INR m * fst (a l m)) else a l m)) out.
Proof.
  intros Ha Hv Hd. destruct (dphi_ok b h s Hsh Hs v d) as (y & E & Ly & _ & Hy); auto; [apply Hv|].
  eexists; split; [exact E|].
  eapply sampled_ext; [|apply (lm_sampled a v y (fun l m c => cmul c (cmul (0, 1) (fnat m, 0))) Ha Hv Ly Hy)].
  intros th ph. apply real_field_ext. intros l m _ _ _. destruct (_ && _); auto.
  unfold cmul. cbn [R_arith fmul fsub fopp fadd fofZ fst snd]. rewrite fnat_INR. f_equal; ring.
Qed.
Definition low_pass (l : nat) : R := exp (-40 * (INR l / INR L) ^ 16).
Lemma filter_R a v : real_spectrum a -> sampled b h (field a) v ->
  exists out, sp_filter b s v = Ok out /\
    sampled b h (field (fun l m => if (l <? L)%nat && (m <? M)%nat
       then (low_pass l * low_pass m * fst (a l m), low_pass l * low_pass m * snd (a l m)) else a l m)) out.
Proof.
  intros Ha Hv. destruct (filter_ok b h s Hsh Hs v) as (y & E & Ly & _ & Hy); auto; [apply Hv|].
  eexists; split; [exact E|].
  eapply sampled_ext; [|apply (lm_sampled a v y (fun l m c => cmulr c (lpf h l * lpf h m)) Ha Hv Ly Hy)].
  intros th ph. apply real_field_ext. intros l m _ _ _. destruct (_ && _); auto.
  unfold cmulr, lpf, low_pass. cbn [R_arith fmul fopp fadd fofZ fexp fdiv fpow fst snd].
  rewrite !fnat_INR. f_equal; ring.
Qed.

Lemma mode_derive l m c th ph :
  is_derive (mode P l m c th) ph (mode P l m (- INR m * snd c, INR m * fst c) th ph).
Proof.
  unfold mode. destruct (Nat.eqb_spec m 0) as [->|Hm].
  - cbn [fst]. replace (- INR 0 * snd c * P l 0%nat th) with 0 by (simpl; ring). apply @is_derive_const.
  - cbn [fst snd]. auto_derive; [auto|]. ring.
Qed.
Lemma field_derive a th ph :
  is_derive (field a th) ph (field (fun l m => (- INR m * snd (a l m), INR m * fst (a l m))) th ph).
Proof.
  unfold field, real_field. apply (is_derive_Rsum (L + 1)
    (fun l ph => Rsum (Nat.min l M + 1) (fun m => mode P l m (a l m) th ph))
    (fun l ph => Rsum (Nat.min l M + 1) (fun m => mode P l m (- INR m * snd (a l m), INR m * fst (a l m)) th ph))).
  intros l Hl. apply (is_derive_Rsum (Nat.min l M + 1) (fun m ph => mode P l m (a l m) th ph)
    (fun m ph => mode P l m (- INR m * snd (a l m), INR m * fst (a l m)) th ph)).
  intros m Hm. apply mode_derive.
Qed.
Lemma field_lin a a' x y th ph :
  field (fun l m => (x * fst (a l m) + y * fst (a' l m), x * snd (a l m) + y * snd (a' l m))) th ph
  = x * field a th ph + y * field a' th ph.
Proof.
  unfold field, real_field. rewrite <- !Rsum_scal, <- Rsum_add. apply Rsum_ext. intros l _.
  rewrite <- !Rsum_scal, <- Rsum_add. apply Rsum_ext. intros m _. unfold mode. cbn [fst snd].
  destruct (Nat.eqb m 0); ring.
Qed.
End Ops.
