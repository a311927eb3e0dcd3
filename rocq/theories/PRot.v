(** The operators on the sphere and on the grid commute with maps of the angular points under which the transforms are
    covariant. *)
From Coq Require Import Reals Lra.
From Coquelicot Require Import Coquelicot.
From Verif Require Import Base BaseLemmas ForList Arith MFd MCheb MSphere MGrid MParams MField MEom
  Spec SphereSpec GridSpec RkSpec SymSpec RotSpec PSum PGrid PTables PMake PFd PFdR PCheb PCheb2 PChebG PSphere PSphere2 PSphereR PGridOp
  PropFd PropFd2 PropCheb PropTables PropGridOp PropRad PropGridFilter PropSphere PropLadder PConc PEom PEomOk PRk PEomR PropRk PCont PLinear.
Local Open Scope R_scope.

Lemma cm_assoc x y z : cm (cm x y) z = cm x (cm y z).
Proof. unfold cm, Rpr. cbn [fst snd]. apply (f_equal2 (@pair R R)); ring. Qed.
Lemma cm_comm x y : cm x y = cm y x.
Proof. unfold cm, Rpr. cbn [fst snd]. apply (f_equal2 (@pair R R)); ring. Qed.

Section G.
Variables (b : build) (h : sht R) (cl Rmin Rmax : R) (nx : nat) (g : grid R) (P : profiles) (s : ptmap) (u : phases).
Hypothesis Hg : grid_of b h cl Rmin Rmax nx g.
Hypothesis Hlaw : lawful b h P.
Hypothesis HL : (Z.of_nat (s_lmax h) < 2 ^ 31)%Z.
Hypothesis H8 : (use_cheb b = false -> 8 <= nx)%nat.
Hypothesis H2 : (use_cheb b = true -> 2 <= nx)%nat.
Local Notation n := (g_n3 g).
Local Notation N := (s_nlat h * s_nphi h)%nat.
Local Notation L := (s_lmax h).
Local Notation M := (s_mmax h).
Local Notation nlm := (nlm_calc (s_lmax h) (s_mmax h)).
Local Notation Hsh := (lw_shapes b h P Hlaw).
Hypothesis Hs : forall it ip, (it < s_nlat h)%nat -> (ip < s_nphi h)%nat -> (fst (s it ip) < s_nlat h)%nat /\ (snd (s it ip) < s_nphi h)%nat.
Hypothesis Han : an_covariant b h s u.
(** multiplying the coefficients by the phases moves the function *)
Hypothesis Hfield : forall a a' : spectrum, (forall l m, (l <= L)%nat -> (m <= l)%nat -> (m <= M)%nat -> a' l m = cm (a l m) (u l (Z.of_nat m))) ->
  forall it ip, (it < s_nlat h)%nat -> (ip < s_nphi h)%nat ->
    real_field P L M a' (grid_theta h it) (grid_phi h ip) = real_field P L M a (grid_theta h (fst (s it ip))) (grid_phi h (snd (s it ip))).

Definition dlm (c : list (R * R)) : spectrum := fun l m => nth (LM L l m) c (0, 0).
Lemma dlm_stores c : length c = nlm -> stores h c (dlm c).
Proof. intros Lc. split; auto. Qed.
Lemma sy_moved y y' : length y = nlm -> length y' = nlm ->
  (forall l m, (l <= L)%nat -> (m <= l)%nat -> (m <= M)%nat -> nth (LM L l m) y' (0, 0) = cm (nth (LM L l m) y (0, 0)) (u l (Z.of_nat m))) ->
  moved 0 b h s (s_sy h y) (s_sy h y').
Proof.
  intros Ly Ly' H. destruct (lw_syn b h P Hlaw y (dlm y) (dlm_stores y Ly)) as [L1 S1]. destruct (lw_syn b h P Hlaw y' (dlm y') (dlm_stores y' Ly')) as [L2 S2].
  split; [exact L1|]. split; [exact L2|]. intros it ip Ht Hp. rewrite S2 by auto. destruct (Hs it ip Ht Hp) as [Ht' Hp']. rewrite S1 by auto.
  apply Hfield; auto.
Qed.

Definition sph_cov (op : list R -> res (list R)) : Prop := forall v v' o o',
  moved 0 b h s v v' -> op v = Ok o -> op v' = Ok o' -> moved 0 b h s o o'.
Lemma lm_cov (op : list R -> res (list R)) (T : nat -> nat -> R * R -> R * R) :
  (forall l m x z, T l m (cm x z) = cm (T l m x) z) ->
  (forall v, length v = N -> exists y, op v = Ok (s_sy h y) /\ length y = nlm /\ length (s_sy h y) = N /\
    forall l m, (l <= L)%nat -> (m <= l)%nat -> (m <= M)%nat ->
      nth (LM L l m) y (0, 0) = if (l <? L)%nat && (m <? M)%nat then T l m (nth (LM L l m) (s_an h v) (0, 0)) else nth (LM L l m) (s_an h v) (0, 0)) ->
  sph_cov op.
Proof.
  intros HT Hop v v' o o' Hm E E'. pose proof Hm as (Lv & Lv' & _).
  destruct (Hop v Lv) as (y1 & E1 & L1 & _ & A1). destruct (Hop v' Lv') as (y2 & E2 & L2 & _ & A2).
  rewrite E1 in E. injection E as <-. rewrite E2 in E'. injection E' as <-. apply sy_moved; auto.
  intros l m Hl Hml HM. rewrite A1, A2 by auto. rewrite (Han v v' Hm l m Hl Hml HM). destruct (_ && _); auto.
Qed.
Lemma sph_ops_cov : sph_cov (fun v => partial_phi b (g_sphere g) v (sph0 g)) /\
  sph_cov (fun v => laplace_beltrami b (g_sphere g) v (sph0 g)) /\ sph_cov (sp_filter b (g_sphere g)).
Proof.
  destruct (gof_sizes b h cl Rmin Rmax nx g Hg) as (Eb & En & _ & El & Ep & Hsp & _).
  assert (L0 : length (sph0 g) = N) by (rewrite sph0_length; congruence).
  split; [|split].
  - apply (lm_cov _ (fun l m x => cmul x (cmul (#0, #1) (fnat m, #0))%f)).
    + intros l m [x1 x2] [y1 y2]. unfold cmul, cm, Rpr. cbn [fst snd]. R_ops. apply (f_equal2 (@pair R R)); ring.
    + intros v Lv. apply (dphi_ok b h (g_sphere g) Hsh Hsp v (sph0 g) Lv L0).
  - apply (lm_cov _ (fun l m x => cmulr x (lapf l))).
    + intros l m [x1 x2] [y1 y2]. unfold cmulr, cm, Rpr. cbn [fst snd]. R_ops. apply (f_equal2 (@pair R R)); ring.
    + intros v Lv. apply (laplace_ok b h (g_sphere g) Hsh Hsp v (sph0 g) Lv L0).
  - apply (lm_cov _ (fun l m x => cmulr x (lpf h l * lpf h m)%f)).
    + intros l m [x1 x2] [y1 y2]. unfold cmulr, cm, Rpr. cbn [fst snd]. R_ops. apply (f_equal2 (@pair R R)); ring.
    + intros v Lv. apply (filter_ok b h (g_sphere g) Hsh Hsp v Lv).
Qed.

(** ** the squared gradient, for mmax = lmax *)
Section Complex.
Hypothesis Hcl : clawful b h P.
Hypothesis Hanc : anc_covariant b h s u.
Hypothesis Hcj : anc_conjugate h.
Hypothesis Hcfield : forall a a' : cspectrum, (forall l m, (l <= L)%nat -> (- Z.of_nat l <= m <= Z.of_nat l)%Z -> a' l m = cm (a l m) (u l m)) ->
  forall it ip, (it < s_nlat h)%nat -> (ip < s_nphi h)%nat ->
    cre P L a' (grid_theta h it) (grid_phi h ip) = cre P L a (grid_theta h (fst (s it ip))) (grid_phi h (snd (s it ip))) /\
    cim P L a' (grid_theta h it) (grid_phi h ip) = cim P L a (grid_theta h (fst (s it ip))) (grid_phi h (snd (s it ip))).
(** neighbouring orders differ by one phase z of modulus 1 *)
Variable z : R * R.
Hypothesis Hz1 : fst z * fst z + snd z * snd z = 1.
Hypothesis Hz : forall l m, u l (m + 1)%Z = cm (u l m) z.

Definition zc : R * R := (fst z, - snd z).
Lemma Hzc l m : u l (m - 1)%Z = cm (u l m) zc.
Proof.
  assert (E : u l m = cm (u l (m - 1)%Z) z) by (rewrite <- Hz; f_equal; lia).
  rewrite E, cm_assoc. destruct (u l (m - 1)%Z) as [x y]. unfold cm, Rpr, zc. cbn [fst snd].
  apply (f_equal2 (@pair R R)); [transitivity (x * (fst z * fst z + snd z * snd z)); [rewrite Hz1; ring|ring]|
    transitivity (y * (fst z * fst z + snd z * snd z)); [rewrite Hz1; ring|ring]].
Qed.

(** conjugation of a function and its coefficients *)
Lemma conj_field (eps : R) (a a' : cspectrum) th ph :
  (forall l m, (l <= L)%nat -> (- Z.of_nat l <= m <= Z.of_nat l)%Z -> a' l (- m)%Z = (eps * (sgm m * fst (a l m)), - (eps * (sgm m * snd (a l m))))) ->
  cre P L a' th ph = eps * cre P L a th ph /\ cim P L a' th ph = - (eps * cim P L a th ph).
Proof.
  intros E. assert (Q : forall l m th, prof P l (- m) th = sgm m * prof P l m th) by (intros; now rewrite prof_neg).
  split.
  - unfold cre. rewrite <- Rsum_scal. apply Rsum_ext. intros l Hl. rewrite <- msum_scal.
    rewrite <- (msum_opp l (fun m => prof P l m th * (fst (a' l m) * cos (IZR m * ph) - snd (a' l m) * sin (IZR m * ph)))).
    apply msum_ext. intros m Hm. rewrite (E l m), Q, opp_IZR by lia. cbn [fst snd].
    replace (- IZR m * ph) with (- (IZR m * ph)) by ring. rewrite cos_neg, sin_neg.
    transitivity (eps * (prof P l m th * (fst (a l m) * cos (IZR m * ph) - snd (a l m) * sin (IZR m * ph))) * (sgm m * sgm m)); [ring|].
    rewrite sgm_sq. ring.
  - unfold cim. replace (- (eps * Rsum (L + 1) (fun l => msum l (fun m => prof P l m th * (fst (a l m) * sin (IZR m * ph) + snd (a l m) * cos (IZR m * ph))))))
      with ((- eps) * Rsum (L + 1) (fun l => msum l (fun m => prof P l m th * (fst (a l m) * sin (IZR m * ph) + snd (a l m) * cos (IZR m * ph))))) by ring.
    rewrite <- Rsum_scal. apply Rsum_ext. intros l Hl. rewrite <- msum_scal.
    rewrite <- (msum_opp l (fun m => prof P l m th * (fst (a' l m) * sin (IZR m * ph) + snd (a' l m) * cos (IZR m * ph)))).
    apply msum_ext. intros m Hm. rewrite (E l m), Q, opp_IZR by lia. cbn [fst snd].
    replace (- IZR m * ph) with (- (IZR m * ph)) by ring. rewrite cos_neg, sin_neg.
    transitivity (- eps * (prof P l m th * (fst (a l m) * sin (IZR m * ph) + snd (a l m) * cos (IZR m * ph))) * (sgm m * sgm m)); [ring|].
    rewrite sgm_sq. ring.
Qed.
Lemma split_field (a a1 a2 : cspectrum) (c1 c2 : R * R) th ph :
  (forall l m, (l <= L)%nat -> (- Z.of_nat l <= m <= Z.of_nat l)%Z ->
     a l m = (fst (cm (a1 l m) c1) + fst (cm (a2 l m) c2), snd (cm (a1 l m) c1) + snd (cm (a2 l m) c2))) ->
  let f1 := cm (cre P L a1 th ph, cim P L a1 th ph) c1 in let f2 := cm (cre P L a2 th ph, cim P L a2 th ph) c2 in
  cre P L a th ph = fst f1 + fst f2 /\ cim P L a th ph = snd f1 + snd f2.
Proof.
  intros E f1 f2. unfold f1, f2, cm, Rpr. cbn [fst snd].
  assert (G : forall (t t1 t2 t3 t4 : nat -> Z -> R) k1 k2 k3 k4, (forall l m, (l <= L)%nat -> (- Z.of_nat l <= m <= Z.of_nat l)%Z -> t l m = k1 * t1 l m + k2 * t2 l m + k3 * t3 l m + k4 * t4 l m) ->
    Rsum (L + 1) (fun l => msum l (t l)) = k1 * Rsum (L + 1) (fun l => msum l (t1 l)) + k2 * Rsum (L + 1) (fun l => msum l (t2 l)) +
      k3 * Rsum (L + 1) (fun l => msum l (t3 l)) + k4 * Rsum (L + 1) (fun l => msum l (t4 l))).
  { intros t t1 t2 t3 t4 k1 k2 k3 k4 Ht. rewrite <- !Rsum_scal, <- !Rsum_add. apply Rsum_ext. intros l Hl.
    unfold msum. rewrite <- !Rsum_scal, <- !Rsum_add. apply Rsum_ext. intros k Hk. apply Ht; lia. }
  split.
  - etransitivity; [unfold cre; apply (G _ (fun l m => prof P l m th * (fst (a1 l m) * cos (IZR m * ph) - snd (a1 l m) * sin (IZR m * ph)))
      (fun l m => prof P l m th * (fst (a1 l m) * sin (IZR m * ph) + snd (a1 l m) * cos (IZR m * ph)))
      (fun l m => prof P l m th * (fst (a2 l m) * cos (IZR m * ph) - snd (a2 l m) * sin (IZR m * ph)))
      (fun l m => prof P l m th * (fst (a2 l m) * sin (IZR m * ph) + snd (a2 l m) * cos (IZR m * ph))) (fst c1) (- snd c1) (fst c2) (- snd c2))|].
    + intros l m Hl Hm. rewrite E by auto. unfold cm, Rpr. cbn [fst snd]. ring.
    + fold (cre P L a1 th ph) (cre P L a2 th ph) (cim P L a1 th ph) (cim P L a2 th ph). ring.
  - etransitivity; [unfold cim; apply (G _ (fun l m => prof P l m th * (fst (a1 l m) * cos (IZR m * ph) - snd (a1 l m) * sin (IZR m * ph)))
      (fun l m => prof P l m th * (fst (a1 l m) * sin (IZR m * ph) + snd (a1 l m) * cos (IZR m * ph)))
      (fun l m => prof P l m th * (fst (a2 l m) * cos (IZR m * ph) - snd (a2 l m) * sin (IZR m * ph)))
      (fun l m => prof P l m th * (fst (a2 l m) * sin (IZR m * ph) + snd (a2 l m) * cos (IZR m * ph))) (snd c1) (fst c1) (snd c2) (fst c2))|].
    + intros l m Hl Hm. rewrite E by auto. unfold cm, Rpr. cbn [fst snd]. ring.
    + fold (cre P L a1 th ph) (cre P L a2 th ph) (cim P L a1 th ph) (cim P L a2 th ph). ring.
Qed.

(** the part of L+ v of degree below L, and the untouched degree L *)
Definition Apart (v : list R) : cspectrum := fun l m =>
  if (l <? L)%nat then (if (m =? - Z.of_nat l)%Z then (0, 0) else cm (nth (ci l (m - 1)) (s_anc h (embed v)) (0, 0)) (rfac l m, 0)) else (0, 0).
Definition Bpart (v : list R) : cspectrum := fun l m =>
  if (l <? L)%nat then (if (m =? Z.of_nat l)%Z then (0, 0) else cm (nth (ci l (m + 1)) (s_anc h (embed v)) (0, 0)) (lfac l m, 0)) else (0, 0).
Definition Wpart (v : list R) : cspectrum := fun l m => if (l <? L)%nat then (0, 0) else nth (ci l m) (s_anc h (embed v)) (0, 0).
Lemma cscale_cm k (x : R * R) : cscale k x = cm x (k, 0).
Proof. unfold cscale, cm, Rpr. cbn [fst snd]. R_ops. apply (f_equal2 (@pair R R)); ring. Qed.
Lemma cj v l m : length v = N -> (l <= L)%nat -> (- Z.of_nat l <= m <= Z.of_nat l)%Z ->
  nth (ci l (- m)) (s_anc h (embed v)) (0, 0) = (sgm m * fst (nth (ci l m) (s_anc h (embed v)) (0, 0)), - (sgm m * snd (nth (ci l m) (s_anc h (embed v)) (0, 0)))).
Proof.
  intros Lv Hl Hm. assert (Lv' : length v = s_nspat h) by (now rewrite (sh_nspat h Hsh)).
  pose proof (Hcj v Lv' l m Hl Hm) as E. cbv zeta in E. change (map (fun x : R => (x, 0)) v) with (embed v) in E.
  rewrite E. unfold sgm. destruct (Z.even m); apply (f_equal2 (@pair R R)); ring.
Qed.
Lemma B_conj v th ph : length v = N -> cre P L (Bpart v) th ph = - cre P L (Apart v) th ph /\ cim P L (Bpart v) th ph = cim P L (Apart v) th ph.
Proof.
  intros Lv. destruct (conj_field (-1) (Apart v) (Bpart v) th ph) as [E1 E2]; [|rewrite E1, E2; split; ring].
  intros l m Hl Hm. unfold Apart, Bpart. destruct (Nat.ltb_spec l L); [|cbn [fst snd]; apply (f_equal2 (@pair R R)); ring].
  destruct (Z.eqb_spec m (- Z.of_nat l)), (Z.eqb_spec (- m) (Z.of_nat l)); try lia; [cbn [fst snd]; apply (f_equal2 (@pair R R)); ring|].
  replace (- m + 1)%Z with (- (m - 1))%Z by ring. rewrite cj by (auto; lia).
  assert (F : lfac l (- m) = rfac l m).
  { unfold lfac, rfac. do 2 f_equal. lia. }
  rewrite F. assert (S : sgm (m - 1) = - sgm m). { replace m with ((m - 1) + 1)%Z at 2 by lia. rewrite sgm_succ. ring. }
  rewrite S. unfold cm, Rpr. cbn [fst snd]. apply (f_equal2 (@pair R R)); ring.
Qed.
Lemma W_real v th ph : length v = N -> cim P L (Wpart v) th ph = 0.
Proof.
  intros Lv. destruct (conj_field 1 (Wpart v) (Wpart v) th ph) as [_ E]; [|lra].
  intros l m Hl Hm. unfold Wpart. destruct (Nat.ltb_spec l L); [cbn [fst snd]; apply (f_equal2 (@pair R R)); ring|].
  rewrite cj by auto. cbn [fst snd]. apply (f_equal2 (@pair R R)); ring.
Qed.
Lemma syc_at y it ip : length y = ((L + 1) * (L + 1))%nat -> (it < s_nlat h)%nat -> (ip < s_nphi h)%nat ->
  nth (spos b h it ip) (s_syc h y) (0, 0) =
  (cre P L (fun l m => nth (ci l m) y (0, 0)) (grid_theta h it) (grid_phi h ip), cim P L (fun l m => nth (ci l m) y (0, 0)) (grid_theta h it) (grid_phi h ip)).
Proof. intros Ly Ht Hp. apply (cl_syn b h P Hcl y (fun l m => nth (ci l m) y (0, 0))); auto. split; auto. Qed.

Lemma sphereX_val v o : length v = N -> sphereX b (g_sphere g) v (sph0 g) = Ok o -> length o = N /\
  exists d, partial_phi b (g_sphere g) v (sph0 g) = Ok d /\ forall it ip, (it < s_nlat h)%nat -> (ip < s_nphi h)%nat ->
  let th := grid_theta h it in let ph := grid_phi h ip in
  nth (spos b h it ip) o 0 = cre P L (Apart v) th ph ^ 2 + cim P L (Apart v) th ph ^ 2 - cre P L (Wpart v) th ph ^ 2 + nth (spos b h it ip) d 0 ^ 2.
Proof.
  intros Lv E. destruct (gof_sizes b h cl Rmin Rmax nx g Hg) as (Eb & En & _ & El & Ep & Hsp & _).
  assert (L0 : length (sph0 g) = N) by (rewrite sph0_length; congruence).
  assert (Q : sph0 g = vec N f0) by (unfold sph0; rewrite El, Ep; reflexivity).
  destruct (sphereX_ok b h (g_sphere g) Hsh Hsp v (sph0 g) HL Lv L0) as (rv & lv & d & o1 & A1 & A2 & A3 & A4 & A5 & A6 & A7 & A8 & A9).
  rewrite A4 in E. injection E as ->. split; auto. exists d. split; [now rewrite Q|]. intros it ip Ht Hp th ph.
  assert (Hpos : (spos b h it ip < N)%nat) by now apply ix_th_ph_lt.
  destruct (raise_ok b h (g_sphere g) Hsh Hsp v (vec N c0) HL Lv (vec_length _ _)) as (yr & E1 & Ly1 & _ & R1 & R2).
  destruct (lower_ok b h (g_sphere g) Hsh Hsp v (vec N c0) HL Lv (vec_length _ _)) as (yl & E2 & Ly2 & _ & S1 & S2).
  rewrite E1 in A1. injection A1 as <-. rewrite E2 in A2. injection A2 as <-.
  specialize (A9 _ Hpos). change (@f0 R _) with 0 in *. change (@c0 R _) with (0, 0) in *.
  rewrite A9. pose proof (syc_at yr it ip Ly1 Ht Hp) as G1. pose proof (syc_at yl it ip Ly2 Ht Hp) as G2. fold th ph in G1, G2.
  destruct (split_field (fun l m => nth (ci l m) yr (0, 0)) (Apart v) (Wpart v) (1, 0) (1, 0) th ph) as [X1 X2].
  { intros l m Hl Hm. unfold Apart, Wpart. destruct (Nat.ltb_spec l L).
    - rewrite R1 by (auto; lia). change (@c0 R _) with (0, 0). destruct (m =? _)%Z; [|rewrite cscale_cm]; unfold cm, Rpr; cbn [fst snd]; apply (f_equal2 (@pair R R)); ring.
    - replace l with L by lia. rewrite R2 by (lia). change (@c0 R _) with (0, 0). unfold cm, Rpr. cbn [fst snd]. match goal with |- ?x = _ => destruct x end. cbn [fst snd].
      apply (f_equal2 (@pair R R)); ring. }
  destruct (split_field (fun l m => nth (ci l m) yl (0, 0)) (Bpart v) (Wpart v) (1, 0) (1, 0) th ph) as [Y1 Y2].
  { intros l m Hl Hm. unfold Bpart, Wpart. destruct (Nat.ltb_spec l L).
    - rewrite S1 by (auto; lia). change (@c0 R _) with (0, 0). destruct (m =? _)%Z; [|rewrite cscale_cm]; unfold cm, Rpr; cbn [fst snd]; apply (f_equal2 (@pair R R)); ring.
    - replace l with L by lia. rewrite S2 by (lia). change (@c0 R _) with (0, 0). unfold cm, Rpr. cbn [fst snd]. match goal with |- ?x = _ => destruct x end. cbn [fst snd].
      apply (f_equal2 (@pair R R)); ring. }
  destruct (B_conj v th ph Lv) as [B1 B2]. pose proof (W_real v th ph Lv) as W0.
  unfold cm, Rpr in X1, X2, Y1, Y2. cbn [fst snd] in X1, X2, Y1, Y2. rewrite B1, W0 in Y1. rewrite B2, W0 in Y2. rewrite W0 in X1, X2.
  change (cplx R) with (R * R)%type in *. rewrite G1, G2, X1, X2, Y1, Y2. unfold cmul. cbn [fst snd]. R_ops. ring.
Qed.

Lemma embed_moved v v' : moved 0 b h s v v' -> moved (0, 0) b h s (embed v) (embed v').
Proof.
  intros (L1 & L2 & E). split; [etransitivity; [apply embed_length|exact L1]|]. split; [etransitivity; [apply embed_length|exact L2]|]. intros it ip Ht Hp. rewrite !embed_nth. now rewrite E.
Qed.
Lemma AW_moved v v' it ip : moved 0 b h s v v' -> (it < s_nlat h)%nat -> (ip < s_nphi h)%nat ->
  let th := grid_theta h it in let ph := grid_phi h ip in
  let th' := grid_theta h (fst (s it ip)) in let ph' := grid_phi h (snd (s it ip)) in
  cre P L (Apart v') th ph ^ 2 + cim P L (Apart v') th ph ^ 2 = cre P L (Apart v) th' ph' ^ 2 + cim P L (Apart v) th' ph' ^ 2 /\
  cre P L (Wpart v') th ph = cre P L (Wpart v) th' ph'.
Proof.
  intros Hm Ht Hp th ph th' ph'. pose proof (Hanc _ _ (embed_moved v v' Hm)) as C. split.
  - destruct (Hcfield (fun l m => cm (Apart v l m) zc) (Apart v')) with (it := it) (ip := ip) as [E1 E2]; auto.
    { intros l m Hl Hlm. unfold Apart. destruct (Nat.ltb_spec l L); [destruct (Z.eqb_spec m (- Z.of_nat l))|].
      - unfold cm, Rpr; cbn [fst snd]; apply (f_equal2 (@pair R R)); ring.
      - rewrite C by (auto; lia). rewrite Hzc. unfold cm, Rpr; cbn [fst snd]; apply (f_equal2 (@pair R R)); ring.
      - unfold cm, Rpr; cbn [fst snd]; apply (f_equal2 (@pair R R)); ring. }
    fold th ph th' ph' in E1, E2. rewrite E1, E2.
    destruct (split_field (fun l m => cm (Apart v l m) zc) (Apart v) (fun _ _ => (0, 0)) zc (0, 0) th' ph') as [X1 X2].
    { intros l m _ _. unfold cm, Rpr; cbn [fst snd]; apply (f_equal2 (@pair R R)); ring. }
    rewrite X1, X2. unfold cm, Rpr, zc. cbn [fst snd]. set (x := cre _ _ _ _ _). set (y := cim _ _ _ _ _).
    transitivity ((x ^ 2 + y ^ 2) * (fst z * fst z + snd z * snd z)); [ring|]. rewrite Hz1. ring.
  - apply (Hcfield (Wpart v) (Wpart v')); auto. intros l m Hl Hlm. unfold Wpart. destruct (Nat.ltb_spec l L).
    + unfold cm, Rpr; cbn [fst snd]; apply (f_equal2 (@pair R R)); ring.
    + apply C; auto.
Qed.
Lemma sphereX_cov : sph_cov (fun v => sphereX b (g_sphere g) v (sph0 g)).
Proof.
  intros v v' o o' Hm E E'. pose proof Hm as (Lv & Lv' & _).
  destruct (sphereX_val v o Lv E) as (Lo & d & Ed & V). destruct (sphereX_val v' o' Lv' E') as (Lo' & d' & Ed' & V').
  split; auto. split; auto. intros it ip Ht Hp. destruct (Hs it ip Ht Hp) as [Ht' Hp']. rewrite V, V' by auto. cbv zeta.
  destruct (AW_moved v v' it ip Hm Ht Hp) as [Q1 Q2]. cbv zeta in Q1, Q2. rewrite Q1, Q2.
  destruct sph_ops_cov as [D _]. destruct (D v v' d d' Hm Ed Ed') as (_ & _ & Dv). rewrite (Dv it ip Ht Hp). reflexivity.
Qed.
End Complex.

(** ** on the grid *)
Definition grid_cov (op : list R -> list R) : Prop := forall v v', gmoved g s v v' -> gmoved g s (op v) (op v').
Lemma gm_shell v v' ix : gmoved g s v v' -> (ix < g_nx g)%nat -> moved 0 b h s (shell g v ix) (shell g v' ix).
Proof.
  intros (L1 & L2 & E) Hx. destruct (gof_sizes b h cl Rmin Rmax nx g Hg) as (Eb & En & _ & El & Ep & _).
  split; [rewrite shell_length; auto; congruence|]. split; [rewrite shell_length; auto; congruence|]. intros it ip Ht Hp.
  destruct (Hs it ip Ht Hp) as [Ht' Hp']. rewrite !(PCont.nth_shell b h cl Rmin Rmax nx g Hg) by (auto; congruence). apply E; auto; congruence.
Qed.
Lemma shell_gm v v' : length v = n -> length v' = n -> (forall ix, (ix < g_nx g)%nat -> moved 0 b h s (shell g v ix) (shell g v' ix)) -> gmoved g s v v'.
Proof.
  intros L1 L2 E. destruct (gof_sizes b h cl Rmin Rmax nx g Hg) as (Eb & En & _ & El & Ep & _).
  split; auto. split; auto. intros ix it ip Hx Ht Hp. destruct (E ix Hx) as (_ & _ & Q).
  rewrite El in Ht. rewrite Ep in Hp. destruct (Hs it ip Ht Hp) as [Ht' Hp']. specialize (Q it ip Ht Hp).
  rewrite !(PCont.nth_shell b h cl Rmin Rmax nx g Hg) in Q by (auto; congruence). exact Q.
Qed.
Lemma gm_rline v v' it ip : gmoved g s v v' -> (it < g_nlat g)%nat -> (ip < g_nphi g)%nat -> rline g v' it ip = rline g v (fst (s it ip)) (snd (s it ip)).
Proof.
  intros (L1 & L2 & E) Ht Hp. apply (nth_ext _ _ 0 0); [now rewrite !rline_length|]. intros ix Hx. rewrite rline_length in Hx. rewrite !nth_rl by auto. now apply E.
Qed.
Lemma rline_gm v v' : length v = n -> length v' = n ->
  (forall it ip, (it < g_nlat g)%nat -> (ip < g_nphi g)%nat -> rline g v' it ip = rline g v (fst (s it ip)) (snd (s it ip))) -> gmoved g s v v'.
Proof.
  intros L1 L2 E. split; auto. split; auto. intros ix it ip Hx Ht Hp. rewrite <- !nth_rl by auto. now rewrite E.
Qed.
Theorem ops_cov : grid_cov (dr_of g) /\ grid_cov (drr_of g) /\ grid_cov (dphi_of g) /\ grid_cov (lap_of g) /\ grid_cov (filt_of g).
Proof.
  assert (Hx : (1 <= nx)%nat). { destruct (use_cheb b) eqn:E; [specialize (H2 eq_refl)|specialize (H8 eq_refl)]; lia. }
  destruct (gof_sizes b h cl Rmin Rmax nx g Hg) as (Eb & En & _ & El & Ep & _).
  assert (Lz : length (zero3 g) = n) by apply vec_length.
  destruct sph_ops_cov as (S1 & S2 & S3).
  assert (Hs' : forall it ip, (it < g_nlat g)%nat -> (ip < g_nphi g)%nat -> (fst (s it ip) < g_nlat g)%nat /\ (snd (s it ip) < g_nphi g)%nat)
    by (rewrite El, Ep; exact Hs).
  split; [|split; [|split; [|split]]]; intros v v' Hm; pose proof Hm as (Lv & Lv' & _).
  - destruct (C23_radial b h cl Rmin Rmax nx g Hg v (zero3 g) H8 H2 Lv Lz) as (x1 & x2 & x3 & E1 & E2 & E3 & L1 & L2 & L3 & A).
    destruct (C23_radial b h cl Rmin Rmax nx g Hg v' (zero3 g) H8 H2 Lv' Lz) as (y1 & y2 & y3 & F1 & F2 & F3 & M1 & M2 & M3 & B).
    unfold dr_of. rewrite E2, F2. apply rline_gm; auto. intros it ip Ht Hp. destruct (Hs' it ip Ht Hp) as [Ht' Hp'].
    destruct (A _ _ Ht' Hp') as (_ & A2 & _), (B it ip Ht Hp) as (_ & B2 & _). rewrite (gm_rline v v') in B2 by auto. congruence.
  - destruct (C23_radial b h cl Rmin Rmax nx g Hg v (zero3 g) H8 H2 Lv Lz) as (x1 & x2 & x3 & E1 & E2 & E3 & L1 & L2 & L3 & A).
    destruct (C23_radial b h cl Rmin Rmax nx g Hg v' (zero3 g) H8 H2 Lv' Lz) as (y1 & y2 & y3 & F1 & F2 & F3 & M1 & M2 & M3 & B).
    unfold drr_of. rewrite E3, F3. apply rline_gm; auto. intros it ip Ht Hp. destruct (Hs' it ip Ht Hp) as [Ht' Hp'].
    destruct (A _ _ Ht' Hp') as (_ & _ & A2), (B it ip Ht Hp) as (_ & _ & B2). rewrite (gm_rline v v') in B2 by auto. congruence.
  - destruct (C23_angular b h cl Rmin Rmax nx g Hg v (zero3 g) Hsh HL Lv Lz) as (x1 & x2 & x3 & E1 & E2 & E3 & L1 & L2 & L3 & A).
    destruct (C23_angular b h cl Rmin Rmax nx g Hg v' (zero3 g) Hsh HL Lv' Lz) as (y1 & y2 & y3 & F1 & F2 & F3 & M1 & M2 & M3 & B).
    unfold dphi_of. rewrite E1, F1. apply shell_gm; auto. intros ix Hix. destruct (A ix Hix) as (A2 & _), (B ix Hix) as (B2 & _).
    exact (S1 _ _ _ _ (gm_shell v v' ix Hm Hix) A2 B2).
  - destruct (C23_angular b h cl Rmin Rmax nx g Hg v (zero3 g) Hsh HL Lv Lz) as (x1 & x2 & x3 & E1 & E2 & E3 & L1 & L2 & L3 & A).
    destruct (C23_angular b h cl Rmin Rmax nx g Hg v' (zero3 g) Hsh HL Lv' Lz) as (y1 & y2 & y3 & F1 & F2 & F3 & M1 & M2 & M3 & B).
    unfold lap_of. rewrite E2, F2. apply shell_gm; auto. intros ix Hix. destruct (A ix Hix) as (_ & A2 & _), (B ix Hix) as (_ & B2 & _).
    exact (S2 _ _ _ _ (gm_shell v v' ix Hm Hix) A2 B2).
  - destruct (C26_filter_is_angular_only b h cl Rmin Rmax nx g Hg v Hsh Hx Lv) as (x1 & E1 & L1 & A).
    destruct (C26_filter_is_angular_only b h cl Rmin Rmax nx g Hg v' Hsh Hx Lv') as (y1 & F1 & M1 & B).
    unfold filt_of. rewrite E1, F1. apply shell_gm; auto. intros ix Hix.
    exact (S3 _ _ _ _ (gm_shell v v' ix Hm Hix) (A ix Hix) (B ix Hix)).
Qed.
Theorem sX_cov : sph_cov (fun v => sphereX b (g_sphere g) v (sph0 g)) -> grid_cov (sX_of g).
Proof.
  intros S v v' Hm. pose proof Hm as (Lv & Lv' & _). assert (Lz : length (zero3 g) = n) by apply vec_length.
  destruct (C23_angular b h cl Rmin Rmax nx g Hg v (zero3 g) Hsh HL Lv Lz) as (x1 & x2 & x3 & E1 & E2 & E3 & L1 & L2 & L3 & A).
  destruct (C23_angular b h cl Rmin Rmax nx g Hg v' (zero3 g) Hsh HL Lv' Lz) as (y1 & y2 & y3 & F1 & F2 & F3 & M1 & M2 & M3 & B).
  unfold sX_of. rewrite E3, F3. apply shell_gm; auto. intros ix Hix. destruct (A ix Hix) as (_ & _ & A2), (B ix Hix) as (_ & _ & B2).
  exact (S _ _ _ _ (gm_shell v v' ix Hm Hix) A2 B2).
Qed.
End G.
