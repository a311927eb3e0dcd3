(** Existence of transforms satisfying the contract assumed of SHTns ([SphereSpec.lawful], [clawful]) for the
    true spherical harmonics: sampling on any nlat > lmax distinct latitudes off the poles and
    nphi > 2 lmax longitudes determines the coefficients. *)
From Coq Require Import Reals Lra.
From Coquelicot Require Import Coquelicot.
From Verif Require Import Base BaseLemmas ForList Arith MSphere PGrid PMake PSphere PSphere2 Spec SphereSpec PSum PFdR PSphereR
  PropSphere PropLadder LegSpec PLeg PSphereD.
Local Open Scope R_scope.

(** ** dual vectors of linearly independent vectors (Gram-Schmidt) *)
Section Dual.
Variable N : nat.
Definition dot (u v : nat -> R) : R := Rsum N (fun i => u i * v i).
Lemma dot_sym u v : dot u v = dot v u.
Proof. apply Rsum_ext. intros; ring. Qed.
Lemma dot_lin a u b v w : dot (fun i => a * u i + b * v i) w = a * dot u w + b * dot v w.
Proof. unfold dot. rewrite <- !Rsum_scal, <- Rsum_add. apply Rsum_ext. intros; ring. Qed.
Lemma dot_sum K (c : nat -> R) (t : nat -> nat -> R) w : dot (fun i => Rsum K (fun k => c k * t k i)) w = Rsum K (fun k => c k * dot (t k) w).
Proof.
  unfold dot. rewrite (Rsum_ext N _ (fun i => Rsum K (fun k => c k * (t k i * w i)))).
  - rewrite Rsum_swap. apply Rsum_ext. intros k _. apply Rsum_scal.
  - intros i _. rewrite Rmult_comm, <- Rsum_scal. apply Rsum_ext. intros; ring.
Qed.
Lemma dot_ext u u' v v' : (forall i, (i < N)%nat -> u i = u' i) -> (forall i, (i < N)%nat -> v i = v' i) -> dot u v = dot u' v'.
Proof. intros H H'. apply Rsum_ext. intros i Hi. now rewrite H, H'. Qed.
Lemma dot_zero u : dot u u = 0 -> forall i, (i < N)%nat -> u i = 0.
Proof.
  intros H i Hi. assert (E : u i * u i = 0).
  { apply (Rsum_nonneg_zero N (fun i => u i * u i)); auto. intros j _. apply Rle_0_sqr. }
  apply Rmult_integral in E. tauto.
Qed.
Definition indep (K : nat) (t : nat -> nat -> R) : Prop :=
  forall x : nat -> R, (forall i, (i < N)%nat -> Rsum K (fun k => x k * t k i) = 0) -> forall k, (k < K)%nat -> x k = 0.
Lemma dual K t : indep K t -> exists w : nat -> nat -> R,
  (forall j k, (j < K)%nat -> (k < K)%nat -> dot (w j) (t k) = if Nat.eqb j k then 1 else 0) /\
  (forall j, (j < K)%nat -> exists c, forall i, w j i = Rsum K (fun k => c k * t k i)).
Proof.
  induction K as [|K IH]; intros HI.
  - exists (fun _ _ => 0). split; intros; lia.
  - destruct IH as (w & Hw & Hspan).
    { intros x Hx k Hk. assert (E := HI (fun k => if Nat.ltb k K then x k else 0)).
      specialize (E ltac:(intros i Hi; cbn [Rsum]; rewrite Nat.ltb_irrefl;
        rewrite (Rsum_ext K _ (fun k => x k * t k i)) by (intros q Hq; destruct (Nat.ltb_spec q K); [auto|lia]); rewrite Hx by auto; ring) k ltac:(lia)).
      cbv beta in E. destruct (Nat.ltb_spec k K); [auto|lia]. }
    set (r := fun i => t K i - Rsum K (fun j => dot (t K) (t j) * w j i)).
    assert (Hr : forall j, (j < K)%nat -> dot r (t j) = 0).
    { intros j Hj. unfold r.
      replace (dot (fun i => t K i - Rsum K (fun j => dot (t K) (t j) * w j i)) (t j))
        with (1 * dot (t K) (t j) + (-1) * dot (fun i => Rsum K (fun j => dot (t K) (t j) * w j i)) (t j)).
      2:{ rewrite <- dot_lin. apply dot_ext; intros; ring. }
      rewrite dot_sum, (Rsum_single K _ j); auto.
      - rewrite Hw, Nat.eqb_refl by auto. ring.
      - intros k Hk Hne. rewrite Hw by auto. destruct (Nat.eqb_spec k j); [congruence|ring]. }
    (* r is a combination of t_0 .. t_K with coefficient 1 at t_K *)
    assert (Hspan' : forall n, (n <= K)%nat -> exists c, forall i, Rsum n (fun j => dot (t K) (t j) * w j i) = Rsum K (fun k => c k * t k i)).
    { induction n as [|n IHn]; intros Hn.
      - exists (fun _ => 0). intros i. cbn [Rsum]. symmetry. apply Rsum_zero. intros; ring.
      - destruct IHn as (c & Hc); [lia|]. destruct (Hspan n ltac:(lia)) as (d & Hd).
        exists (fun k => c k + dot (t K) (t n) * d k). intros i. cbn [Rsum]. rewrite Hc, Hd, <- Rsum_scal, <- Rsum_add.
        apply Rsum_ext. intros; ring. }
    destruct (Hspan' K (le_n K)) as (c & Hc).
    assert (Rr : forall i, r i = Rsum (S K) (fun k => (if Nat.ltb k K then - c k else 1) * t k i)).
    { intros i. unfold r. rewrite Hc. cbn [Rsum]. rewrite Nat.ltb_irrefl.
      rewrite (Rsum_ext K (fun k => (if Nat.ltb k K then - c k else 1) * t k i) (fun k => (-1) * (c k * t k i))).
      - rewrite Rsum_scal. ring.
      - intros k Hk. destruct (Nat.ltb_spec k K); [ring|lia]. }
    assert (Hrr : dot r r <> 0).
    { intros E0. pose proof (dot_zero r E0) as Z.
      specialize (HI _ ltac:(intros i Hi; rewrite <- Rr; apply Z; exact Hi) K ltac:(lia)). cbv beta in HI.
      rewrite Nat.ltb_irrefl in HI. lra. }
    assert (HrK : dot r (t K) = dot r r).
    { rewrite (dot_ext r (fun i => Rsum (S K) (fun k => (if Nat.ltb k K then - c k else 1) * t k i)) r r) by (auto; intros; apply Rr).
      rewrite dot_sum. rewrite (Rsum_single (S K) _ K) by (try lia; intros k Hk Hne; rewrite dot_sym, Hr by lia; ring).
      rewrite Nat.ltb_irrefl, dot_sym. ring. }
    set (u := fun i => / dot r r * r i).
    assert (Hu : forall j, (j < S K)%nat -> dot u (t j) = if Nat.eqb j K then 1 else 0).
    { intros j Hj. unfold u. rewrite (dot_ext _ (fun i => / dot r r * r i + 0 * 0) (t j) (t j)) by (intros; ring).
      rewrite dot_lin. destruct (Nat.eqb_spec j K) as [->|].
      - rewrite HrK. field. auto.
      - rewrite Hr by lia. ring. }
    exists (fun j => if Nat.ltb j K then (fun i => 1 * w j i + (- dot (w j) (t K)) * u i) else u). split.
    + intros j k Hj Hk. destruct (Nat.ltb_spec j K).
      * rewrite dot_lin, Hu by auto. destruct (Nat.eqb_spec k K) as [->|].
        -- destruct (Nat.eqb_spec j K); [lia|]. ring.
        -- rewrite Hw by lia. ring.
      * assert (j = K) by lia. subst. rewrite Hu by auto. rewrite Nat.eqb_sym. reflexivity.
    + assert (Su : exists c, forall i, u i = Rsum (S K) (fun k => c k * t k i)).
      { eexists (fun k => / dot r r * (if Nat.ltb k K then - c k else 1)). intros i. unfold u. rewrite Rr, <- Rsum_scal. apply Rsum_ext. intros; ring. }
      intros j Hj. destruct (Nat.ltb_spec j K); [|exact Su].
      destruct Su as (cu & Hcu). destruct (Hspan j ltac:(lia)) as (cw & Hcw).
      exists (fun k => (if Nat.ltb k K then cw k else 0) + (- dot (w j) (t K)) * cu k). intros i.
      rewrite Hcw, Hcu.
      transitivity (Rsum (S K) (fun k => (if Nat.ltb k K then cw k else 0) * t k i) + Rsum (S K) (fun k => (- dot (w j) (t K)) * (cu k * t k i))).
      * f_equal; [|symmetry; apply Rsum_scal]. cbn [Rsum]. rewrite Nat.ltb_irrefl.
        rewrite (Rsum_ext K (fun k => (if Nat.ltb k K then cw k else 0) * t k i) (fun k => cw k * t k i)); [ring|].
        intros k Hk. destruct (Nat.ltb_spec k K); [auto|lia].
      * rewrite <- Rsum_add. apply Rsum_ext. intros; ring.
Qed.
End Dual.

(** ** polynomials with many roots *)
Fixpoint sdiv (r : R) (p : list R) : list R :=
  match p with [] => [] | a :: p' => match p' with [] => [] | _ => poly p' r :: sdiv r p' end end.
Lemma sdiv_length r p : length (sdiv r p) = (length p - 1)%nat.
Proof. induction p as [|a [|b p] IH]; auto. cbn [sdiv length] in *. lia. Qed.
Lemma sdiv_spec r p x : poly p x - poly p r = (x - r) * poly (sdiv r p) x.
Proof.
  induction p as [|a p IH]; [cbn; ring|]. destruct p as [|b p]; [cbn; ring|].
  change (sdiv r (a :: b :: p)) with (poly (b :: p) r :: sdiv r (b :: p)). set (q := b :: p) in *.
  change (poly (a :: q) x) with (a + x * poly q x). change (poly (a :: q) r) with (a + r * poly q r).
  change (poly (poly q r :: sdiv r q) x) with (poly q r + x * poly (sdiv r q) x).
  transitivity ((x - r) * poly q r + x * (poly q x - poly q r)); [ring|]. rewrite IH. ring.
Qed.
Lemma sdiv_zero r p : poly p r = 0 -> (forall i, nth i (sdiv r p) 0 = 0) -> forall i, nth i p 0 = 0.
Proof.
  induction p as [|a p IH]; intros H0 H i; [destruct i; auto|].
  destruct p as [|b p].
  - cbn in H0. destruct i as [|[|i]]; cbn; auto; lra.
  - change (sdiv r (a :: b :: p)) with (poly (b :: p) r :: sdiv r (b :: p)) in H. set (q := b :: p) in *.
    pose proof (H 0%nat) as Hq. cbn [nth] in Hq. change (poly (a :: q) r) with (a + r * poly q r) in H0.
    destruct i as [|i]; cbn [nth]; [rewrite Hq in H0; lra|]. apply IH; auto. intros j. exact (H (S j)).
Qed.
Lemma many_roots n p (x : nat -> R) : (length p <= n)%nat -> (forall i j, (i < n)%nat -> (j < n)%nat -> x i = x j -> i = j) ->
  (forall i, (i < n)%nat -> poly p (x i) = 0) -> forall i, nth i p 0 = 0.
Proof.
  revert p; induction n as [|n IH]; intros p Lp Hx Hp.
  - destruct p; [|cbn in Lp; lia]. intros [|]; auto.
  - apply (sdiv_zero (x n)); [apply Hp; lia|]. apply IH.
    + rewrite sdiv_length. lia.
    + intros; apply Hx; auto.
    + intros i Hi. pose proof (sdiv_spec (x n) p (x i)) as E. rewrite !Hp in E by lia.
      symmetry in E. replace (0 - 0) with 0 in E by ring. apply Rmult_integral in E. destruct E as [E|E]; auto.
      assert (i = n) by (apply Hx; auto; lra). lia.
Qed.

(** Legendre functions of one order are independent on distinct nodes *)
Fixpoint psum (n : nat) (al : nat -> R) (q : nat -> list R) : list R :=
  match n with O => [] | S n' => padd (psum n' al q) (pscal (al n') (q n')) end.
Lemma psum_spec n al q x : poly (psum n al q) x = Rsum n (fun k => al k * poly (q k) x).
Proof. induction n; cbn [psum Rsum]; auto. rewrite padd_spec, pscal_spec. now f_equal. Qed.
Lemma psum_length n al q : (forall k, length (q k) = S k) -> length (psum n al q) = n.
Proof. intros H. induction n; cbn [psum]; auto. rewrite padd_length. unfold pscal. rewrite map_length, H. lia. Qed.
Lemma psum_zero n al q : (forall k, length (q k) = S k /\ nth k (q k) 0 <> 0) -> (forall i, nth i (psum n al q) 0 = 0) ->
  forall k, (k < n)%nat -> al k = 0.
Proof.
  intros Hq. induction n as [|n IH]; intros H k Hk; [lia|]. cbn [psum] in H.
  assert (E : al n = 0).
  { specialize (H n). rewrite padd_nth, (nth_overflow (psum n al q)) in H by (rewrite psum_length; [lia|intros; apply Hq]).
    unfold pscal in H. rewrite (nth_indep _ 0 (al n * 0)) in H by (rewrite map_length; rewrite (proj1 (Hq n)); lia). rewrite map_nth in H.
    rewrite Rplus_0_l in H. apply Rmult_integral in H. destruct H; auto. destruct (Hq n); contradiction. }
  destruct (Nat.eq_dec k n) as [->|]; auto. apply IH; [|lia]. intros i. specialize (H i). rewrite padd_nth in H.
  replace (nth i (pscal (al n) (q n)) 0) with 0 in H; [lra|]. rewrite E. unfold pscal.
  destruct (lt_dec i (length (q n))).
  - rewrite (nth_indep _ 0 (0 * 0)) by (rewrite map_length; auto). rewrite map_nth. ring.
  - rewrite nth_overflow; auto. rewrite map_length. lia.
Qed.
Definition leglist (l m : nat) : list R := pscal (/ (2 ^ l * INR (fact l))) (dpn (l + m) (wpow l)).
Lemma leglist_spec l m x : legendre l m x = poly (leglist l m) x.
Proof. apply legendre_poly. Qed.
Lemma leglist_lead l m : (m <= l)%nat -> length (leglist l m) = S (l - m) /\ nth (l - m) (leglist l m) 0 <> 0.
Proof.
  intros Hm. destruct (dpn_lead (l + m) (wpow l) (l - m) 1) as (a & [L H] & Ha).
  - replace (l - m + (l + m))%nat with (2 * l)%nat by lia. apply wpow_lead.
  - lra.
  - unfold leglist, pscal. pose proof (c_pos l). split; [now rewrite map_length|].
    rewrite (nth_indep _ 0 (/ (2 ^ l * INR (fact l)) * 0)) by (rewrite map_length; lia). rewrite map_nth, H.
    apply Rmult_integral_contrapositive_currified; auto. apply Rinv_neq_0_compat. lra.
Qed.
Lemma legendre_indep L m n (x al : nat -> R) : (m <= L)%nat -> (L < n)%nat ->
  (forall i j, (i < n)%nat -> (j < n)%nat -> x i = x j -> i = j) ->
  (forall i, (i < n)%nat -> Rsum (L - m + 1) (fun k => al (m + k)%nat * legendre (m + k) m (x i)) = 0) ->
  forall l, (m <= l)%nat -> (l <= L)%nat -> al l = 0.
Proof.
  intros Hm Hn Hx H l Hl1 Hl2. replace l with (m + (l - m))%nat by lia.
  set (q := fun k => leglist (m + k) m).
  assert (Hq : forall k, length (q k) = S k /\ nth k (q k) 0 <> 0).
  { intros k. pose proof (leglist_lead (m + k) m ltac:(lia)) as Hk. replace (m + k - m)%nat with k in Hk by lia. exact Hk. }
  apply (psum_zero (L - m + 1) (fun k => al (m + k)%nat) q Hq); [|lia].
  apply (many_roots n _ x); auto.
  - rewrite psum_length; [lia|]. intros k; apply Hq.
  - intros i Hi. rewrite psum_spec, <- (H i Hi). apply Rsum_ext. intros k _. now rewrite leglist_spec.
Qed.

(** ** discrete Fourier orthogonality *)
Section Fourier.
Variable n : nat.
Hypothesis Hn : (0 < n)%nat.
Definition pt (k : nat) : R := 2 * PI * INR k / INR n.
Lemma n_pos : 0 < INR n. Proof. now apply lt_0_INR. Qed.
Lemma sum_cos_tele th K : 2 * sin (th / 2) * Rsum K (fun k => cos (th * INR k)) = sin ((INR K - 1 / 2) * th) + sin (th / 2).
Proof.
  induction K as [|K IH]; cbn [Rsum].
  - simpl INR. replace ((0 - 1 / 2) * th) with (- (th / 2)) by field. rewrite sin_neg. ring.
  - rewrite Rmult_plus_distr_l, IH, S_INR.
    replace ((INR K + 1 - 1 / 2) * th) with (th * INR K + th / 2) by field.
    replace ((INR K - 1 / 2) * th) with (th * INR K - th / 2) by field. rewrite sin_plus, sin_minus. ring.
Qed.
Lemma sum_sin_tele th K : 2 * sin (th / 2) * Rsum K (fun k => sin (th * INR k)) = cos (th / 2) - cos ((INR K - 1 / 2) * th).
Proof.
  induction K as [|K IH]; cbn [Rsum].
  - simpl INR. replace ((0 - 1 / 2) * th) with (- (th / 2)) by field. rewrite cos_neg. ring.
  - rewrite Rmult_plus_distr_l, IH, S_INR.
    replace ((INR K + 1 - 1 / 2) * th) with (th * INR K + th / 2) by field.
    replace ((INR K - 1 / 2) * th) with (th * INR K - th / 2) by field. rewrite cos_plus, cos_minus. ring.
Qed.
Lemma sin_2Zpi x j : sin (2 * PI * IZR j - x) = - sin x /\ cos (2 * PI * IZR j - x) = cos x.
Proof.
  destruct (Z_le_gt_dec 0 j) as [H|H].
  - replace (2 * PI * IZR j - x) with (- x + 2 * INR (Z.to_nat j) * PI).
    2:{ rewrite INR_IZR_INZ, Z2Nat.id by lia. ring. }
    rewrite sin_period, cos_period. split; [apply sin_neg|apply cos_neg].
  - assert (E : - x = (2 * PI * IZR j - x) + 2 * INR (Z.to_nat (- j)) * PI).
    { rewrite INR_IZR_INZ, Z2Nat.id by lia. rewrite opp_IZR. ring. }
    split.
    + rewrite <- (sin_period (2 * PI * IZR j - x) (Z.to_nat (- j))), <- E. apply sin_neg.
    + rewrite <- (cos_period (2 * PI * IZR j - x) (Z.to_nat (- j))), <- E. apply cos_neg.
Qed.
Lemma half_angle_nz j : (j <> 0)%Z -> (Z.abs j < Z.of_nat n)%Z -> sin (IZR j * (2 * PI / INR n) / 2) <> 0.
Proof.
  intros Hj Hlt. pose proof n_pos. pose proof PI_RGT_0.
  assert (G : forall k, (0 < k)%Z -> (k < Z.of_nat n)%Z -> 0 < sin (IZR k * (2 * PI / INR n) / 2)).
  { intros k H1 H2. replace (IZR k * (2 * PI / INR n) / 2) with (PI * (IZR k / INR n)) by (field; lra).
    assert (0 < IZR k) by now apply (IZR_lt 0).
    assert (0 < IZR k / INR n < 1).
    { split; [apply Rdiv_lt_0_compat; auto|]. apply Rmult_lt_reg_r with (INR n); auto. unfold Rdiv.
      rewrite Rmult_assoc, Rinv_l by lra. rewrite Rmult_1_l, Rmult_1_r, INR_IZR_INZ. now apply IZR_lt. }
    apply sin_gt_0; [apply Rmult_lt_0_compat; lra|nra]. }
  destruct (Z_lt_le_dec 0 j).
  - apply Rgt_not_eq, G; lia.
  - intros E. specialize (G (- j)%Z ltac:(lia) ltac:(lia)). rewrite opp_IZR in G.
    replace (- IZR j * (2 * PI / INR n) / 2) with (- (IZR j * (2 * PI / INR n) / 2)) in G by (field; lra).
    rewrite sin_neg, E in G. lra.
Qed.
Lemma fourier j : (Z.abs j < Z.of_nat n)%Z ->
  Rsum n (fun k => cos (IZR j * pt k)) = (if (j =? 0)%Z then INR n else 0) /\ Rsum n (fun k => sin (IZR j * pt k)) = 0.
Proof.
  intros Hlt. pose proof n_pos. destruct (Z.eqb_spec j 0) as [->|Hj].
  - split.
    + rewrite (Rsum_ext n _ (fun _ => 1)); [rewrite Rsum_const; ring|]. intros. rewrite Rmult_0_l. apply cos_0.
    + apply Rsum_zero. intros. rewrite Rmult_0_l. apply sin_0.
  - set (th := IZR j * (2 * PI / INR n)).
    assert (Eth : forall k, IZR j * pt k = th * INR k) by (intros; unfold pt, th; field; lra).
    pose proof (half_angle_nz j Hj Hlt) as Hnz. fold th in Hnz.
    assert (EK : (INR n - 1 / 2) * th = 2 * PI * IZR j - th / 2) by (unfold th; field; lra).
    destruct (sin_2Zpi (th / 2) j) as [E1 E2].
    pose proof (sum_cos_tele th n) as C. pose proof (sum_sin_tele th n) as S. rewrite EK, E1 in C. rewrite EK, E2 in S.
    split.
    + rewrite (Rsum_ext n _ (fun k => cos (th * INR k))) by (intros; now rewrite Eth).
      apply (Rmult_eq_reg_l (2 * sin (th / 2))); [rewrite C; ring|lra].
    + rewrite (Rsum_ext n _ (fun k => sin (th * INR k))) by (intros; now rewrite Eth).
      apply (Rmult_eq_reg_l (2 * sin (th / 2))); [rewrite S; ring|lra].
Qed.
End Fourier.
