(** The angular and radial operators of two builds that differ only in storage order and assertions. *)
From Verif Require Import Base BaseLemmas ForList Arith MFd MCheb MSphere MGrid SphereSpec GridSpec LaySpec
  PGrid PTables PMake PSphere PSphere2 PSphereR PGridOp PropTables PropGridOp PEomOk.
Local Open Scope nat_scope.

(** *** an assertion can only stop a computation, never change its result *)
Definition le {A} (r r' : res A) : Prop := forall x, r = Ok x -> r' = Ok x.
Lemma le_refl {A} (r : res A) : le r r.
Proof. intros x H. exact H. Qed.
Lemma le_bind {A B} (r r' : res A) (k k' : A -> res B) : le r r' -> (forall x, le (k x) (k' x)) -> le (bind r k) (bind r' k').
Proof. intros H K y E. destruct r as [x| | | |]; cbn [bind] in E; try discriminate. rewrite (H x eq_refl). cbn [bind]. apply K. exact E. Qed.
Lemma le_assert b b' c : ndebug b' = true -> le (assert_ b c) (assert_ b' c).
Proof. intros H [] _. unfold assert_. now rewrite H. Qed.
Ltac mono := repeat match goal with
  | |- le ?r ?r => apply le_refl
  | |- le (assert_ _ _) (assert_ _ _) => apply le_assert; assumption
  | |- le (bind _ _) (bind _ _) => apply le_bind; [|intros]
  | |- le (let '(_, _) := ?x in _) _ => destruct x
  end.

Section Radial.
Context {F : Type} {AF : Arith F}.
Lemma fd_der_le b b' (g : fd F) v dv : ndebug b' = true -> le (fd_der b g v dv) (fd_der b' g v dv).
Proof. intros Hb. unfold fd_der. mono. Qed.
Lemma fd_der2_le b b' (g : fd F) v dv : ndebug b' = true -> le (fd_der2 b g v dv) (fd_der2 b' g v dv).
Proof. intros Hb. unfold fd_der2. mono. Qed.
Lemma to_ch_le b b' (g : cheb F) v dv : ndebug b' = true -> le (to_ch b g v dv) (to_ch b' g v dv).
Proof. intros Hb. unfold to_ch. mono. Qed.
Lemma to_po_le b b' (g : cheb F) v dv : ndebug b' = true -> le (to_po b g v dv) (to_po b' g v dv).
Proof. intros Hb. unfold to_po. mono. Qed.
Lemma cheb_der_le b b' (g : cheb F) v dv : ndebug b' = true -> le (cheb_der b g v dv) (cheb_der b' g v dv).
Proof. intros Hb. unfold cheb_der. mono. now apply to_ch_le. now apply to_po_le. Qed.
Lemma rad_make_le b b' n lo up : use_cheb b = use_cheb b' -> ndebug b' = true -> le (rad_make (F := F) b n lo up) (rad_make b' n lo up).
Proof. intros Hc Hb. unfold rad_make. rewrite Hc. destruct (use_cheb b'); mono. unfold Cheb_make. mono. Qed.
Lemma rad_der_le b b' (r : radial F) v dv : ndebug b' = true -> le (rad_der b r v dv) (rad_der b' r v dv).
Proof. intros Hb. destruct r; [now apply fd_der_le|now apply cheb_der_le]. Qed.
Lemma le_join {A} (f : build -> res A) b b' x x' : (forall c c', (use_cheb c = use_cheb c') -> ndebug c' = true -> le (f c) (f c')) -> use_cheb b = use_cheb b' ->
  f b = Ok x -> f b' = Ok x' -> x = x'.
Proof.
  intros H Hc E E'. set (c := Build (use_cheb b) (contiguous b) true).
  pose proof (H b c eq_refl eq_refl x E). pose proof (H b' c (eq_sym Hc) eq_refl x' E'). congruence.
Qed.
End Radial.

Section Sph.
Context {F : Type} {AF : Arith F}.
Variables (b b' : build) (h h' : sht F) (s s' : sphere F).
Hypothesis Hsh : shapes h.
Hypothesis Hsh' : shapes h'.
Hypothesis Hs : Sphere_make h (s_lmax h) (s_mmax h) (s_nlat h) (s_nphi h) = Ok s.
Hypothesis Hs' : Sphere_make h' (s_lmax h') (s_mmax h') (s_nlat h') (s_nphi h') = Ok s'.
Hypothesis Hrl : relaid b b' h h'.
Local Notation N := (s_nlat h * s_nphi h).
Local Notation same := (same_sphere b b' (s_nlat h) (s_nphi h)).

Lemma N_eq : s_nlat h' * s_nphi h' = N.
Proof. now rewrite (rl_nlat _ _ _ _ Hrl), (rl_nphi _ _ _ _ Hrl). Qed.
Lemma coefs_same (y y' : list (cplx F)) : length y = nlm_calc (s_lmax h) (s_mmax h) -> length y' = nlm_calc (s_lmax h) (s_mmax h) ->
  (forall l m, l <= s_lmax h -> m <= l -> m <= s_mmax h -> nth (LM (s_lmax h) l m) y c0 = nth (LM (s_lmax h) l m) y' c0) -> y = y'.
Proof.
  intros L L' H. apply nth_ext with c0 c0; [congruence|]. intros k Hk. rewrite L in Hk.
  destruct (LM_surj _ _ k (sh_mmax h Hsh) Hk) as (l & m & A & B & C & <-). now apply H.
Qed.
Lemma ccoefs_same (y y' : list (cplx F)) : length y = (s_lmax h + 1) * (s_lmax h + 1) -> length y' = (s_lmax h + 1) * (s_lmax h + 1) ->
  (forall l m, l <= s_lmax h -> (- Z.of_nat l <= m <= Z.of_nat l)%Z -> nth (ci l m) y c0 = nth (ci l m) y' c0) -> y = y'.
Proof.
  intros L L' H. apply nth_ext with c0 c0; [congruence|]. intros k Hk. rewrite L in Hk.
  destruct (ci_surj (s_lmax h + 1) k Hk) as (l & m & A & B & <-). apply H; lia.
Qed.
Lemma dphi_same v v' d d' r r' : same v v' -> length d = N -> length d' = N -> partial_phi b s v d = Ok r -> partial_phi b' s' v' d' = Ok r' -> same r r'.
Proof.
  intros Hv Ld Ld' E E'. pose proof Hv as (Lv & Lv' & _). pose proof N_eq as EN.
  destruct (dphi_ok b h s Hsh Hs v d Lv Ld) as (y & Ey & Ly & _ & Ny).
  destruct (dphi_ok b' h' s' Hsh' Hs' v' d') as (y' & Ey' & Ly' & _ & Ny'); try congruence.
  rewrite (rl_lmax _ _ _ _ Hrl), (rl_mmax _ _ _ _ Hrl) in Ly', Ny'. rewrite <- (rl_an _ _ _ _ Hrl v v' Hv) in Ny'.
  assert (y = y') by (apply coefs_same; auto; intros; rewrite Ny, Ny' by auto; reflexivity). subst y'.
  assert (r = s_sy h y) by congruence. assert (r' = s_sy h' y) by congruence. subst r r'. now apply (rl_sy _ _ _ _ Hrl).
Qed.
Lemma lap_same v v' d d' r r' : same v v' -> length d = N -> length d' = N -> laplace_beltrami b s v d = Ok r -> laplace_beltrami b' s' v' d' = Ok r' -> same r r'.
Proof.
  intros Hv Ld Ld' E E'. pose proof Hv as (Lv & Lv' & _). pose proof N_eq as EN.
  destruct (laplace_ok b h s Hsh Hs v d Lv Ld) as (y & Ey & Ly & _ & Ny).
  destruct (laplace_ok b' h' s' Hsh' Hs' v' d') as (y' & Ey' & Ly' & _ & Ny'); try congruence.
  rewrite (rl_lmax _ _ _ _ Hrl), (rl_mmax _ _ _ _ Hrl) in Ly', Ny'. rewrite <- (rl_an _ _ _ _ Hrl v v' Hv) in Ny'.
  assert (y = y') by (apply coefs_same; auto; intros; rewrite Ny, Ny' by auto; reflexivity). subst y'.
  assert (r = s_sy h y) by congruence. assert (r' = s_sy h' y) by congruence. subst r r'. now apply (rl_sy _ _ _ _ Hrl).
Qed.
Lemma filter_same v v' r r' : same v v' -> sp_filter b s v = Ok r -> sp_filter b' s' v' = Ok r' -> same r r'.
Proof.
  intros Hv E E'. pose proof Hv as (Lv & Lv' & _). pose proof N_eq as EN.
  destruct (filter_ok b h s Hsh Hs v Lv) as (y & Ey & Ly & _ & Ny).
  destruct (filter_ok b' h' s' Hsh' Hs' v') as (y' & Ey' & Ly' & _ & Ny'); try congruence.
  unfold lpf in Ny'. rewrite (rl_lmax _ _ _ _ Hrl), (rl_mmax _ _ _ _ Hrl) in Ly', Ny'. rewrite <- (rl_an _ _ _ _ Hrl v v' Hv) in Ny'.
  assert (y = y') by (apply coefs_same; auto; intros; rewrite Ny, Ny' by auto; reflexivity). subst y'.
  assert (r = s_sy h y) by congruence. assert (r' = s_sy h' y) by congruence. subst r r'. now apply (rl_sy _ _ _ _ Hrl).
Qed.
Lemma embed_same v v' : same v v' -> same (embed v) (embed v').
Proof.
  intros (A & B & C). unfold same_sphere, embed. rewrite !map_length. split; auto. split; auto. intros it ip H1 H2. rewrite !nth_error_map. now rewrite C.
Qed.
Lemma raise_same v v' d d' r r' : (Z.of_nat (s_lmax h) < 2 ^ 31)%Z -> same v v' -> length d = N -> length d' = N -> raise b s v d = Ok r -> raise b' s' v' d' = Ok r' -> same r r'.
Proof.
  intros HL Hv Ld Ld' E E'. pose proof Hv as (Lv & Lv' & _). pose proof N_eq as EN. assert (HL' : (Z.of_nat (s_lmax h') < 2 ^ 31)%Z) by now rewrite (rl_lmax _ _ _ _ Hrl).
  destruct (raise_ok b h s Hsh Hs v d HL Lv Ld) as (y & Ey & Ly & _ & Ny & Ty).
  destruct (raise_ok b' h' s' Hsh' Hs' v' d') as (y' & Ey' & Ly' & _ & Ny' & Ty'); try congruence.
  rewrite (rl_lmax _ _ _ _ Hrl) in Ly', Ny', Ty'. rewrite <- (rl_anc _ _ _ _ Hrl (embed v) (embed v') (embed_same v v' Hv)) in Ny', Ty'.
  assert (y = y').
  { apply ccoefs_same; auto. intros l m Hl Hm. destruct (Nat.eq_dec l (s_lmax h)) as [->|Hn].
    - rewrite Ty, Ty' by auto. reflexivity. - rewrite Ny, Ny' by (auto; lia). reflexivity. } subst y'.
  assert (r = s_syc h y) by congruence. assert (r' = s_syc h' y) by congruence. subst r r'. now apply (rl_syc _ _ _ _ Hrl).
Qed.
Lemma lower_same v v' d d' r r' : (Z.of_nat (s_lmax h) < 2 ^ 31)%Z -> same v v' -> length d = N -> length d' = N -> lower b s v d = Ok r -> lower b' s' v' d' = Ok r' -> same r r'.
Proof.
  intros HL Hv Ld Ld' E E'. pose proof Hv as (Lv & Lv' & _). pose proof N_eq as EN. assert (HL' : (Z.of_nat (s_lmax h') < 2 ^ 31)%Z) by now rewrite (rl_lmax _ _ _ _ Hrl).
  destruct (lower_ok b h s Hsh Hs v d HL Lv Ld) as (y & Ey & Ly & _ & Ny & Ty).
  destruct (lower_ok b' h' s' Hsh' Hs' v' d') as (y' & Ey' & Ly' & _ & Ny' & Ty'); try congruence.
  rewrite (rl_lmax _ _ _ _ Hrl) in Ly', Ny', Ty'. rewrite <- (rl_anc _ _ _ _ Hrl (embed v) (embed v') (embed_same v v' Hv)) in Ny', Ty'.
  assert (y = y').
  { apply ccoefs_same; auto. intros l m Hl Hm. destruct (Nat.eq_dec l (s_lmax h)) as [->|Hn].
    - rewrite Ty, Ty' by auto. reflexivity. - rewrite Ny, Ny' by (auto; lia). reflexivity. } subst y'.
  assert (r = s_syc h y) by congruence. assert (r' = s_syc h' y) by congruence. subst r r'. now apply (rl_syc _ _ _ _ Hrl).
Qed.
Lemma pos_lt c it ip : it < s_nlat h -> ip < s_nphi h -> pos c (s_nlat h) (s_nphi h) it ip < N.
Proof. intros. unfold pos. destruct (contiguous c); nia. Qed.
Lemma sphereX_same v v' d d' r r' : (Z.of_nat (s_lmax h) < 2 ^ 31)%Z -> same v v' -> length d = N -> length d' = N -> sphereX b s v d = Ok r -> sphereX b' s' v' d' = Ok r' -> same r r'.
Proof.
  intros HL Hv Ld Ld' E E'. pose proof Hv as (Lv & Lv' & _). pose proof N_eq as EN. assert (HL' : (Z.of_nat (s_lmax h') < 2 ^ 31)%Z) by now rewrite (rl_lmax _ _ _ _ Hrl).
  destruct (sphereX_ok b h s Hsh Hs v d HL Lv Ld) as (rv & lv & dp & o & E1 & E2 & E3 & E4 & Lo & L1 & L2 & L3 & H).
  destruct (sphereX_ok b' h' s' Hsh' Hs' v' d') as (rv' & lv' & dp' & o' & E1' & E2' & E3' & E4' & Lo' & L1' & L2' & L3' & H'); try congruence.
  rewrite EN in *. assert (r = o) by congruence. assert (r' = o') by congruence. subst r r'.
  assert (VL : forall A (z : A), length (vec N z) = N) by (intros; apply vec_length).
  pose proof (raise_same v v' _ _ rv rv' HL Hv (VL _ c0) (VL _ c0) E1 E1') as S1.
  pose proof (lower_same v v' _ _ lv lv' HL Hv (VL _ c0) (VL _ c0) E2 E2') as S2.
  pose proof (dphi_same v v' _ _ dp dp' Hv (VL _ f0) (VL _ f0) E3 E3') as S3.
  split; auto. split; auto. intros it ip Ht Hp. pose proof (pos_lt b it ip Ht Hp) as P. pose proof (pos_lt b' it ip Ht Hp) as P'.
  rewrite (nth_error_nth' o f0), (nth_error_nth' o' f0) by lia. f_equal. rewrite H, H' by auto.
  assert (G : forall A (z : A) x x', same x x' -> nth (pos b (s_nlat h) (s_nphi h) it ip) x z = nth (pos b' (s_nlat h) (s_nphi h) it ip) x' z).
  { intros A z x x' (A1 & A2 & A3). specialize (A3 it ip Ht Hp). rewrite (nth_error_nth' x z), (nth_error_nth' x' z) in A3 by lia. congruence. }
  now rewrite (G _ c0 rv rv'), (G _ c0 lv lv'), (G _ f0 dp dp').
Qed.
Lemma power_same v v' p p' r r' : same v v' -> length p = s_lmax h -> length p' = s_lmax h ->
  power_spectrum b s v p = Ok r -> power_spectrum b' s' v' p' = Ok r' -> r = r'.
Proof.
  intros Hv Lp Lp' E E'. pose proof Hv as (Lv & Lv' & _). pose proof N_eq as EN.
  destruct (power_ok b h s Hsh Hs v p Lv Lp) as (q & Eq & Lq & Nq).
  destruct (power_ok b' h' s' Hsh' Hs' v' p') as (q' & Eq' & Lq' & Nq'); [congruence|rewrite (rl_lmax _ _ _ _ Hrl); auto|].
  rewrite (rl_lmax _ _ _ _ Hrl) in Lq', Nq'. rewrite (rl_mmax _ _ _ _ Hrl) in Nq'. rewrite <- (rl_an _ _ _ _ Hrl v v' Hv) in Nq'.
  assert (q = q') by (apply nth_ext with f0 f0; [congruence|]; intros k Hk; rewrite Lq in Hk; rewrite Nq, Nq' by auto; reflexivity). congruence.
Qed.
End Sph.
