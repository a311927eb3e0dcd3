(** Linearity of the differential operators of Grid over the reals, given linear transforms. *)
From Coq Require Import Reals Lra.
From Coquelicot Require Import Coquelicot.
From Verif Require Import Base BaseLemmas ForList Arith MFd MCheb MSphere MGrid MParams MField MEom
  Spec SphereSpec GridSpec RkSpec SymSpec PSum PGrid PTables PMake PFd PFdR PCheb PCheb2 PChebG PSphere PSphere2 PSphereR PGridOp
  PropFd PropFd2 PropCheb PropTables PropGridOp PropRad PropGridFilter PConc PEom PEomOk PRk PEomR PropRk.
Local Open Scope R_scope.

(** ** lists *)
Lemma nth_clincomb a v c w i n : length v = n -> length w = n -> (i < n)%nat ->
  nth i (clincomb a v c w) (0, 0) = (a * fst (nth i v (0,0)) + c * fst (nth i w (0,0)), a * snd (nth i v (0,0)) + c * snd (nth i w (0,0))).
Proof.
  intros Hv Hw Hi. unfold clincomb.
  set (h := fun q : (R * R) * (R * R) => (a * fst (fst q) + c * fst (snd q), a * snd (fst q) + c * snd (snd q))).
  rewrite (nth_indep _ (0, 0) (h ((0, 0), (0, 0)))) by (rewrite map_length, combine_length; lia).
  rewrite (map_nth h), combine_nth by lia. reflexivity.
Qed.
Lemma clincomb_length a v c w n : length v = n -> length w = n -> length (clincomb a v c w) = n.
Proof. intros. unfold clincomb. rewrite map_length, combine_length. lia. Qed.
Lemma lincomb_ext a v c w o n : length v = n -> length w = n -> length o = n ->
  (forall i, (i < n)%nat -> nth i o 0 = a * nth i v 0 + c * nth i w 0) -> o = lincomb a v c w.
Proof.
  intros Lv Lw Lo H. apply (nth_ext _ _ 0 0); [now rewrite (lincomb_length _ _ _ _ n)|].
  rewrite Lo. intros i Hi. rewrite (nth_lincomb _ _ _ _ _ n) by auto. auto.
Qed.
Lemma negv_lincomb v : negv v = lincomb (-1) v 0 v.
Proof.
  apply (lincomb_ext _ _ _ _ _ (length v)); auto; [apply map_length|]. intros i Hi.
  rewrite (nth_indep _ 0 (- 0)) by (unfold negv; rewrite map_length; auto). unfold negv. rewrite map_nth. ring.
Qed.
Lemma axpy_lincomb a v c w t k1 k2 n : length v = n -> length w = n -> length k1 = n -> length k2 = n ->
  axpy t (lincomb a k1 c k2) (lincomb a v c w) = lincomb a (axpy t k1 v) c (axpy t k2 w).
Proof.
  intros Lv Lw L1 L2. assert (LL := lincomb_length a v c w n Lv Lw). assert (LK := lincomb_length a k1 c k2 n L1 L2).
  assert (X : forall t k u i, length k = n -> length u = n -> (i < n)%nat -> nth i (axpy t k u) 0 = nth i u 0 + t * nth i k 0).
  { intros t' k u i Lk Lu Hi. apply nth_error_nth. refine (eq_trans (axpy_nth t' k u i (nth i u 0) (nth i k 0) _ _) _); [apply nth_error_nth'; lia..|reflexivity]. }
  apply (lincomb_ext _ _ _ _ _ n); try now apply axpy_length. intros i Hi.
  rewrite !X by auto. rewrite !(nth_lincomb _ _ _ _ _ n) by auto. ring.
Qed.

Section G.
Variables (b : build) (h : sht R) (cl Rmin Rmax : R) (nx : nat) (g : grid R).
Hypothesis Hg : grid_of b h cl Rmin Rmax nx g.
Hypothesis Hsh : shapes h.
Hypothesis HL : (Z.of_nat (s_lmax h) < 2 ^ 31)%Z.
Hypothesis H8 : (use_cheb b = false -> 8 <= nx)%nat.
Hypothesis H2 : (use_cheb b = true -> 2 <= nx)%nat.
Hypothesis Hln : linear_sht h.
Local Notation n := (g_n3 g).
Local Notation N := (s_nlat h * s_nphi h)%nat.
Local Notation L := (s_lmax h).
Local Notation M := (s_mmax h).
Local Notation nlm := (nlm_calc (s_lmax h) (s_mmax h)).

Lemma nspatN (v : list R) : length v = N -> length v = s_nspat h.
Proof. now rewrite (sh_nspat h Hsh). Qed.
Lemma shell_lin a v c w ix : length v = n -> length w = n -> (ix < g_nx g)%nat ->
  shell g (lincomb a v c w) ix = lincomb a (shell g v ix) c (shell g w ix).
Proof.
  intros Lv Lw Hx. destruct (gof_sizes b h cl Rmin Rmax nx g Hg) as (_ & En & _ & El & Ep & _).
  pose proof (lincomb_length a v c w n Lv Lw) as LL.
  apply (lincomb_ext _ _ _ _ _ (g_nlat g * g_nphi g)); try (apply shell_length; auto). intros i Hi.
  rewrite !nth_shell by auto. apply (nth_lincomb _ _ _ _ _ n); auto.
  unfold g_n3. nia.
Qed.
Lemma rline_lin a v c w it ip : length v = n -> length w = n -> (it < g_nlat g)%nat -> (ip < g_nphi g)%nat ->
  rline g (lincomb a v c w) it ip = lincomb a (rline g v it ip) c (rline g w it ip).
Proof.
  intros Lv Lw Ht Hp. apply (lincomb_ext _ _ _ _ _ (g_nx g)); try apply rline_length. intros i Hi.
  rewrite !nth_rl by auto. apply (nth_lincomb _ _ _ _ _ n); auto. now apply ix_R_th_ph_lt.
Qed.

(** ** on one sphere *)
Lemma lm_ext (y y' : list (R * R)) : length y = nlm -> length y' = nlm ->
  (forall l m, (l <= L)%nat -> (m <= l)%nat -> (m <= M)%nat -> nth (LM L l m) y (0, 0) = nth (LM L l m) y' (0, 0)) -> y = y'.
Proof.
  intros Ly Ly' H. apply (nth_ext _ _ (0, 0) (0, 0)); [congruence|]. intros i Hi. rewrite Ly in Hi.
  destruct (LM_surj L M i (sh_mmax h Hsh) Hi) as (l & m & Hl & Hm & Hm' & <-). apply H; auto.
Qed.
Lemma ci_ext (y y' : list (R * R)) : length y = ((L + 1) * (L + 1))%nat -> length y' = ((L + 1) * (L + 1))%nat ->
  (forall l m, (l <= L)%nat -> (- Z.of_nat l <= m <= Z.of_nat l)%Z -> nth (ci l m) y (0, 0) = nth (ci l m) y' (0, 0)) -> y = y'.
Proof.
  intros Ly Ly' H. apply (nth_ext _ _ (0, 0) (0, 0)); [congruence|]. intros i Hi. rewrite Ly in Hi.
  destruct (ci_surj _ i Hi) as (l & m & Hl & Hm & <-). apply H; auto. lia.
Qed.
Lemma LMlt l m : (l <= L)%nat -> (m <= l)%nat -> (m <= M)%nat -> (LM L l m < nlm)%nat.
Proof. intros. apply PSphere.LM_lt; auto. apply (sh_mmax h Hsh). Qed.

Definition sph_linear (op : list R -> res (list R)) : Prop := forall a v c w ov ow,
  length v = N -> length w = N -> op v = Ok ov -> op w = Ok ow -> op (lincomb a v c w) = Ok (lincomb a ov c ow).

Lemma lm_linear (op : list R -> res (list R)) (T : nat -> nat -> R * R -> R * R) :
  (forall l m a c x y, T l m (a * fst x + c * fst y, a * snd x + c * snd y) =
     (a * fst (T l m x) + c * fst (T l m y), a * snd (T l m x) + c * snd (T l m y))) ->
  (forall v, length v = N -> exists y, op v = Ok (s_sy h y) /\ length y = nlm /\ length (s_sy h y) = N /\
    forall l m, (l <= L)%nat -> (m <= l)%nat -> (m <= M)%nat ->
      nth (LM L l m) y (0, 0) = if (l <? L)%nat && (m <? M)%nat then T l m (nth (LM L l m) (s_an h v) (0, 0)) else nth (LM L l m) (s_an h v) (0, 0)) ->
  sph_linear op.
Proof.
  intros HT Hop a v c w ov ow Lv Lw Ev Ew.
  destruct (Hop v Lv) as (y1 & E1 & L1 & _ & A1). destruct (Hop w Lw) as (y2 & E2 & L2 & _ & A2).
  destruct (Hop (lincomb a v c w)) as (y3 & E3 & L3 & _ & A3); [now apply lincomb_length|].
  rewrite E1 in Ev. injection Ev as <-. rewrite E2 in Ew. injection Ew as <-. rewrite E3.
  rewrite <- (ln_sy h Hln) by auto. do 2 f_equal. apply lm_ext; auto; [now apply clincomb_length|].
  intros l m Hl Hm HM. rewrite A3 by auto. rewrite (nth_clincomb _ _ _ _ _ nlm) by (auto; now apply LMlt).
  rewrite A1, A2 by auto. rewrite (ln_an h Hln) by now apply nspatN.
  rewrite (nth_clincomb _ _ _ _ _ nlm) by (first [now apply LMlt | apply (sh_an h Hsh); now apply nspatN]).
  destruct (_ && _); [apply HT|reflexivity].
Qed.

Lemma sph_ops_linear : sph_linear (fun v => partial_phi b (g_sphere g) v (sph0 g)) /\
  sph_linear (fun v => laplace_beltrami b (g_sphere g) v (sph0 g)) /\ sph_linear (sp_filter b (g_sphere g)).
Proof.
  destruct (gof_sizes b h cl Rmin Rmax nx g Hg) as (Eb & En & _ & El & Ep & Hs & _).
  assert (L0 : length (sph0 g) = N) by (rewrite sph0_length; congruence).
  repeat split.
  - apply (lm_linear _ (fun l m x => cmul x (cmul (#0, #1) (fnat m, #0))%f)).
    + intros l m a c [x1 x2] [y1 y2]. unfold cmul. cbn [fst snd]. R_ops. apply (f_equal2 (@pair R R)); ring.
    + intros v Lv. apply (dphi_ok b h (g_sphere g) Hsh Hs v (sph0 g) Lv L0).
  - apply (lm_linear _ (fun l m x => cmulr x (lapf l))).
    + intros l m a c [x1 x2] [y1 y2]. unfold cmulr. cbn [fst snd]. R_ops. apply (f_equal2 (@pair R R)); ring.
    + intros v Lv. apply (laplace_ok b h (g_sphere g) Hsh Hs v (sph0 g) Lv L0).
  - apply (lm_linear _ (fun l m x => cmulr x (lpf h l * lpf h m)%f)).
    + intros l m a c [x1 x2] [y1 y2]. unfold cmulr. cbn [fst snd]. R_ops. apply (f_equal2 (@pair R R)); ring.
    + intros v Lv. apply (filter_ok b h (g_sphere g) Hsh Hs v Lv).
Qed.

(** raise and lower are linear too *)
Lemma embed_nth (v : list R) i : nth i (embed v) (0, 0) = (nth i v 0, 0).
Proof. exact (map_nth (fun x : R => (x, 0)) v 0 i). Qed.
Lemma embed_lin a v c w : length v = N -> length w = N -> embed (lincomb a v c w) = clincomb a (embed v) c (embed w).
Proof.
  intros Lv Lw. apply (nth_ext _ _ (0, 0) (0, 0)).
  - rewrite (clincomb_length _ _ _ _ N) by (unfold embed; rewrite map_length; auto). unfold embed. rewrite map_length. now apply lincomb_length.
  - intros i Hi. unfold embed in Hi. rewrite map_length, (lincomb_length _ _ _ _ N) in Hi by auto.
    rewrite (nth_clincomb _ _ _ _ _ N) by (auto; unfold embed; now rewrite map_length).
    rewrite !embed_nth. cbn [fst snd]. rewrite (nth_lincomb _ _ _ _ _ N) by auto. apply (f_equal2 (@pair R R)); ring.
Qed.
Definition csph_linear (op : list R -> res (list (R * R))) : Prop := forall a v c w ov ow,
  length v = N -> length w = N -> op v = Ok ov -> op w = Ok ow -> op (lincomb a v c w) = Ok (clincomb a ov c ow).
Lemma ci_linear (op : list R -> res (list (R * R))) (T : nat -> Z -> (Z -> R * R) -> R * R) :
  (forall l m a c x y, T l m (fun k => (a * fst (x k) + c * fst (y k), a * snd (x k) + c * snd (y k))) =
     (a * fst (T l m x) + c * fst (T l m y), a * snd (T l m x) + c * snd (T l m y))) ->
  (forall l m x y, (l <= L)%nat -> (- Z.of_nat l <= m <= Z.of_nat l)%Z -> (forall k, (- Z.of_nat l <= k <= Z.of_nat l)%Z -> x k = y k) -> T l m x = T l m y) ->
  (forall v, length v = N -> exists y, op v = Ok (s_syc h y) /\ length y = ((L + 1) * (L + 1))%nat /\
    forall l m, (l <= L)%nat -> (- Z.of_nat l <= m <= Z.of_nat l)%Z ->
      nth (ci l m) y (0, 0) = T l m (fun k => nth (ci l k) (s_anc h (embed v)) (0, 0))) ->
  csph_linear op.
Proof.
  intros HT Hx Hop a v c w ov ow Lv Lw Ev Ew.
  destruct (Hop v Lv) as (y1 & E1 & L1 & A1). destruct (Hop w Lw) as (y2 & E2 & L2 & A2).
  destruct (Hop (lincomb a v c w)) as (y3 & E3 & L3 & A3); [now apply lincomb_length|].
  rewrite E1 in Ev. injection Ev as <-. rewrite E2 in Ew. injection Ew as <-. rewrite E3.
  rewrite <- (ln_syc h Hln) by auto. do 2 f_equal. apply ci_ext; auto; [now apply clincomb_length|].
  assert (Le : forall u, length u = N -> length (embed u) = s_nspat h) by (intros u Lu; rewrite embed_length; now apply nspatN).
  intros l m Hl Hm. rewrite A3 by auto.
  rewrite (nth_clincomb _ _ _ _ _ ((L + 1) * (L + 1))) by (auto; apply ci_lt; auto; lia).
  rewrite A1, A2 by auto. rewrite <- HT. apply Hx; auto. intros k Hk. rewrite embed_lin by auto. rewrite (ln_anc h Hln) by auto.
  rewrite (nth_clincomb _ _ _ _ _ ((L + 1) * (L + 1))); auto; try (apply (sh_anc h Hsh); auto). apply ci_lt; auto; lia.
Qed.
Lemma ladder_linear : csph_linear (fun v => raise b (g_sphere g) v (vec N c0)) /\ csph_linear (fun v => lower b (g_sphere g) v (vec N c0)).
Proof.
  destruct (gof_sizes b h cl Rmin Rmax nx g Hg) as (Eb & En & _ & El & Ep & Hs & _). split.
  - apply (ci_linear _ (fun l m x => if (l <? L)%nat then (if (m =? - Z.of_nat l)%Z then (0, 0) else cscale (rfac l m) (x (m - 1)%Z)) else x m)).
    + intros l m a c x y. destruct (l <? L)%nat; [destruct (m =? _)%Z|]; try reflexivity.
      * cbn [fst snd]. apply (f_equal2 (@pair R R)); ring.
      * unfold cscale. cbn [fst snd]. R_ops. apply (f_equal2 (@pair R R)); ring.
    + intros l m x y Hl Hm E. destruct (Nat.ltb_spec l L); [destruct (Z.eqb_spec m (- Z.of_nat l))|]; auto. rewrite E by lia. auto.
    + intros v Lv. destruct (raise_ok b h (g_sphere g) Hsh Hs v (vec N c0) HL Lv (vec_length _ _)) as (y & E & Ly & _ & A & B).
      exists y. split; auto. split; auto. intros l m Hl Hm. destruct (Nat.ltb_spec l L); [apply A; auto|]. replace l with L by lia. apply B. lia.
  - apply (ci_linear _ (fun l m x => if (l <? L)%nat then (if (m =? Z.of_nat l)%Z then (0, 0) else cscale (lfac l m) (x (m + 1)%Z)) else x m)).
    + intros l m a c x y. destruct (l <? L)%nat; [destruct (m =? _)%Z|]; try reflexivity.
      * cbn [fst snd]. apply (f_equal2 (@pair R R)); ring.
      * unfold cscale. cbn [fst snd]. R_ops. apply (f_equal2 (@pair R R)); ring.
    + intros l m x y Hl Hm E. destruct (Nat.ltb_spec l L); [destruct (Z.eqb_spec m (Z.of_nat l))|]; auto. rewrite E by lia. auto.
    + intros v Lv. destruct (lower_ok b h (g_sphere g) Hsh Hs v (vec N c0) HL Lv (vec_length _ _)) as (y & E & Ly & _ & A & B).
      exists y. split; auto. split; auto. intros l m Hl Hm. destruct (Nat.ltb_spec l L); [apply A; auto|]. replace l with L by lia. apply B. lia.
Qed.
(** so sphereX is homogeneous of degree two *)
Lemma sphereX_scale a v o : length v = N -> sphereX b (g_sphere g) v (sph0 g) = Ok o ->
  sphereX b (g_sphere g) (lincomb a v 0 v) (sph0 g) = Ok (lincomb (a * a) o 0 o).
Proof.
  intros Lv E. destruct (gof_sizes b h cl Rmin Rmax nx g Hg) as (Eb & En & _ & El & Ep & Hs & _).
  assert (L0 : length (sph0 g) = N) by (rewrite sph0_length; congruence).
  pose proof (lincomb_length a v 0 v N Lv Lv) as LL.
  destruct (sphereX_ok b h (g_sphere g) Hsh Hs v (sph0 g) HL Lv L0) as (r1 & l1 & d1 & o1 & A1 & A2 & A3 & A4 & A5 & A6 & A7 & A8 & A9).
  destruct (sphereX_ok b h (g_sphere g) Hsh Hs _ (sph0 g) HL LL L0) as (r2 & l2 & d2 & o2 & B1 & B2 & B3 & B4 & B5 & B6 & B7 & B8 & B9).
  rewrite A4 in E. injection E as ->. rewrite B4. f_equal. apply (lincomb_ext _ _ _ _ _ N); auto. intros i Hi.
  destruct ladder_linear as [R1 R2]. rewrite (R1 a v 0 v r1 r1 Lv Lv A1 A1) in B1. injection B1 as <-.
  rewrite (R2 a v 0 v l1 l1 Lv Lv A2 A2) in B2. injection B2 as <-.
  assert (D : partial_phi b (g_sphere g) (lincomb a v 0 v) (vec N f0) = Ok (lincomb a d1 0 d1)).
  { destruct sph_ops_linear as [S _]. assert (Q : sph0 g = vec N f0) by (unfold sph0; rewrite El, Ep; reflexivity). rewrite <- Q in *. apply S; auto. }
  rewrite D in B3. injection B3 as <-.
  specialize (A9 i Hi). specialize (B9 i Hi). change (@f0 R _) with 0 in *. change (@c0 R _) with (0, 0) in *. rewrite A9, B9.
  rewrite !(nth_clincomb _ _ _ _ _ N), (nth_lincomb _ _ _ _ _ N) by auto.
  unfold cmul. cbn [fst snd]. R_ops. change (cplx R) with (R * R)%type. ring.
Qed.

(** ** on one radial line *)
Lemma line_R_linear a v c w ov ow : length v = g_nx g -> length w = g_nx g ->
  line_R g v = Ok ov -> line_R g w = Ok ow -> line_R g (lincomb a v c w) = Ok (lincomb a ov c ow).
Proof.
  destruct (gof_sizes b h cl Rmin Rmax nx g Hg) as (Eb & En & _). unfold line_R. rewrite Eb, En. intros Lv Lw.
  assert (L0 : length (rad0 g) = nx) by (rewrite rad0_length; auto).
  destruct (use_cheb b) eqn:Hc.
  - destruct (cheb_grid b h cl Rmin Rmax nx g Hg Hc) as (ch & Ec & ->). cbn [rad_der]. specialize (H2 eq_refl).
    pose proof (make_wf _ _ _ _ _ H2 Ec) as W.
    rewrite !(cheb_der_val b ch nx Rmin Rmax H2 W) by (auto; now apply lincomb_length).
    intros E1 E2. injection E1 as <-. injection E2 as <-. f_equal.
    apply (lincomb_ext _ _ _ _ _ nx); rewrite ?map_length, ?seq_length; auto. intros i Hi. rewrite !nth_map_seq by auto.
    rewrite (Rsum_ext (nx - 2) _ (fun k => a * (ana (nx - 1) (fun j => nth j v 0) k * (INR k * Um k (cos (PI * INR i / INR (nx - 1))))) +
      c * (ana (nx - 1) (fun j => nth j w 0) k * (INR k * Um k (cos (PI * INR i / INR (nx - 1))))))).
    + rewrite Rsum_add, !Rsum_scal. unfold Rdiv. ring.
    + intros k Hk. rewrite (ana_ext _ _ (fun j => a * nth j v 0 + c * nth j w 0)); [rewrite ana_lin; ring|].
      intros j Hj. apply (nth_lincomb _ _ _ _ _ nx); auto; lia.
  - rewrite (fd_grid b h cl Rmin Rmax nx g Hg Hc). cbn [rad_der]. specialize (H8 eq_refl).
    destruct (C13_linear b nx Rmin Rmax a v c w (rad0 g) Lv Lw L0) as (A & _). destruct A as (x & y & E1 & E2 & E3); [lia|].
    rewrite E1, E2, E3. congruence.
Qed.
Lemma line_r_linear a v c w ov ow : length v = g_nx g -> length w = g_nx g ->
  line_r g v = Ok ov -> line_r g w = Ok ow -> line_r g (lincomb a v c w) = Ok (lincomb a ov c ow).
Proof.
  intros Lv Lw Ev Ew. destruct (gof_sizes b h cl Rmin Rmax nx g Hg) as (Eb & En & _ & _ & _ & _ & _ & LdR & Ld2 & _).
  assert (R7 : rad_big g 7) by (apply (gof_rad b h cl Rmin Rmax nx g Hg); auto; intros E; specialize (H8 E); lia).
  destruct (line_r_total g v R7 Lv ltac:(congruence)) as (d1 & o1 & A1 & B1 & C1 & D1 & F1).
  destruct (line_r_total g w R7 Lw ltac:(congruence)) as (d2 & o2 & A2 & B2 & C2 & D2 & F2).
  destruct (line_r_total g (lincomb a v c w) R7 ltac:(now apply lincomb_length) ltac:(congruence)) as (d3 & o3 & A3 & B3 & C3 & D3 & F3).
  rewrite B1 in Ev. injection Ev as <-. rewrite B2 in Ew. injection Ew as <-. rewrite B3. f_equal.
  pose proof (line_R_linear a v c w d1 d2 Lv Lw A1 A2) as E. rewrite A3 in E. injection E as ->.
  apply (lincomb_ext _ _ _ _ _ (g_nx g)); auto. intros i Hi. change (@f0 R _) with 0 in *. rewrite F1, F2, F3 by auto. rewrite (nth_lincomb _ _ _ _ _ (g_nx g)) by auto.
  R_ops. ring.
Qed.
Lemma line_r2_linear a v c w ov ow : length v = g_nx g -> length w = g_nx g ->
  line_r2 g v = Ok ov -> line_r2 g w = Ok ow -> line_r2 g (lincomb a v c w) = Ok (lincomb a ov c ow).
Proof.
  intros Lv Lw Ev Ew. destruct (gof_sizes b h cl Rmin Rmax nx g Hg) as (Eb & En & _ & _ & _ & _ & _ & LdR & Ld2 & _).
  assert (R8 : rad_big g 8) by (apply (gof_rad b h cl Rmin Rmax nx g Hg); auto).
  destruct (line_r2_total g v R8 Lv ltac:(congruence) ltac:(congruence)) as (d1 & e1 & o1 & A1 & C1 & D1 & G1 & B1 & K1 & F1).
  destruct (line_r2_total g w R8 Lw ltac:(congruence) ltac:(congruence)) as (d2 & e2 & o2 & A2 & C2 & D2 & G2 & B2 & K2 & F2).
  destruct (line_r2_total g (lincomb a v c w) R8 ltac:(now apply lincomb_length) ltac:(congruence) ltac:(congruence)) as (d3 & e3 & o3 & A3 & C3 & D3 & G3 & B3 & K3 & F3).
  rewrite B1 in Ev. injection Ev as <-. rewrite B2 in Ew. injection Ew as <-. rewrite B3. f_equal.
  pose proof (line_R_linear a v c w d1 d2 Lv Lw A1 A2) as E. rewrite A3 in E. injection E as ->.
  assert (Q : e3 = lincomb a e1 c e2).
  { pose proof line_R_linear as LRL. destruct (use_cheb b) eqn:Hc.
    - destruct (cheb_grid b h cl Rmin Rmax nx g Hg Hc) as (ch & Ec & Er). rewrite Er in *.
      pose proof (LRL a d1 c d2 e1 e2 C1 C2 G1 G2) as E. congruence.
    - pose proof (fd_grid b h cl Rmin Rmax nx g Hg Hc) as Er. rewrite Er in *. specialize (H8 eq_refl).
      assert (L0 : length (rad0 g) = nx) by (rewrite rad0_length; auto).
      destruct (C13_linear (g_bld g) nx Rmin Rmax a v c w (rad0 g) ltac:(congruence) ltac:(congruence) L0) as (_ & A & _).
      destruct A as (x & y & E1 & E2 & E3); [lia|]. congruence. }
  subst e3. apply (lincomb_ext _ _ _ _ _ (g_nx g)); auto. intros i Hi. change (@f0 R _) with 0 in *. rewrite F1, F2, F3 by auto.
  rewrite !(nth_lincomb _ _ _ _ _ (g_nx g)) by auto. R_ops. ring.
Qed.

(** ** on the grid *)
Definition grid_linear (op : list R -> list R) : Prop := forall a v c w, length v = n -> length w = n ->
  op (lincomb a v c w) = lincomb a (op v) c (op w).
Theorem ops_linear : grid_linear (dr_of g) /\ grid_linear (drr_of g) /\ grid_linear (dphi_of g) /\ grid_linear (lap_of g) /\ grid_linear (filt_of g).
Proof.
  assert (Hx : (1 <= nx)%nat). { destruct (use_cheb b) eqn:E; [specialize (H2 eq_refl)|specialize (H8 eq_refl)]; lia. }
  destruct (gof_sizes b h cl Rmin Rmax nx g Hg) as (Eb & En & _ & El & Ep & _).
  assert (Lz : length (zero3 g) = n) by apply vec_length.
  destruct sph_ops_linear as (S1 & S2 & S3).
  assert (LS : forall v ix, length v = n -> (ix < g_nx g)%nat -> length (shell g v ix) = N) by (intros; rewrite shell_length; auto; congruence).
  repeat split; intros a v c w Lv Lw; pose proof (lincomb_length a v c w n Lv Lw) as LL.
  - destruct (C23_radial b h cl Rmin Rmax nx g Hg v (zero3 g) H8 H2 Lv Lz) as (x1 & x2 & x3 & E1 & E2 & E3 & L1 & L2 & L3 & A).
    destruct (C23_radial b h cl Rmin Rmax nx g Hg w (zero3 g) H8 H2 Lw Lz) as (y1 & y2 & y3 & F1 & F2 & F3 & M1 & M2 & M3 & B).
    destruct (C23_radial b h cl Rmin Rmax nx g Hg _ (zero3 g) H8 H2 LL Lz) as (z1 & z2 & z3 & G1 & G2 & G3 & N1 & N2 & N3 & C).
    unfold dr_of. rewrite E2, F2, G2. apply (rline_ext g); auto; [now apply lincomb_length|]. intros it ip Ht Hp.
    rewrite rline_lin by auto. destruct (A it ip Ht Hp) as (_ & A2 & _), (B it ip Ht Hp) as (_ & B2 & _), (C it ip Ht Hp) as (_ & C2 & _).
    rewrite rline_lin in C2 by auto. rewrite (line_r_linear a _ c _ _ _ (rline_length g v it ip) (rline_length g w it ip) A2 B2) in C2. congruence.
  - destruct (C23_radial b h cl Rmin Rmax nx g Hg v (zero3 g) H8 H2 Lv Lz) as (x1 & x2 & x3 & E1 & E2 & E3 & L1 & L2 & L3 & A).
    destruct (C23_radial b h cl Rmin Rmax nx g Hg w (zero3 g) H8 H2 Lw Lz) as (y1 & y2 & y3 & F1 & F2 & F3 & M1 & M2 & M3 & B).
    destruct (C23_radial b h cl Rmin Rmax nx g Hg _ (zero3 g) H8 H2 LL Lz) as (z1 & z2 & z3 & G1 & G2 & G3 & N1 & N2 & N3 & C).
    unfold drr_of. rewrite E3, F3, G3. apply (rline_ext g); auto; [now apply lincomb_length|]. intros it ip Ht Hp.
    rewrite rline_lin by auto. destruct (A it ip Ht Hp) as (_ & _ & A2), (B it ip Ht Hp) as (_ & _ & B2), (C it ip Ht Hp) as (_ & _ & C2).
    rewrite rline_lin in C2 by auto. rewrite (line_r2_linear a _ c _ _ _ (rline_length g v it ip) (rline_length g w it ip) A2 B2) in C2. congruence.
  - destruct (C23_angular b h cl Rmin Rmax nx g Hg v (zero3 g) Hsh HL Lv Lz) as (x1 & x2 & x3 & E1 & E2 & E3 & L1 & L2 & L3 & A).
    destruct (C23_angular b h cl Rmin Rmax nx g Hg w (zero3 g) Hsh HL Lw Lz) as (y1 & y2 & y3 & F1 & F2 & F3 & M1 & M2 & M3 & B).
    destruct (C23_angular b h cl Rmin Rmax nx g Hg _ (zero3 g) Hsh HL LL Lz) as (z1 & z2 & z3 & G1 & G2 & G3 & N1 & N2 & N3 & C).
    unfold dphi_of. rewrite E1, F1, G1. apply (shells_ext g); auto; [now apply lincomb_length|]. intros ix Hix.
    rewrite shell_lin by auto. destruct (A ix Hix) as (A2 & _), (B ix Hix) as (B2 & _), (C ix Hix) as (C2 & _).
    rewrite shell_lin in C2 by auto. rewrite (S1 a _ c _ _ _ (LS v ix Lv Hix) (LS w ix Lw Hix) A2 B2) in C2. congruence.
  - destruct (C23_angular b h cl Rmin Rmax nx g Hg v (zero3 g) Hsh HL Lv Lz) as (x1 & x2 & x3 & E1 & E2 & E3 & L1 & L2 & L3 & A).
    destruct (C23_angular b h cl Rmin Rmax nx g Hg w (zero3 g) Hsh HL Lw Lz) as (y1 & y2 & y3 & F1 & F2 & F3 & M1 & M2 & M3 & B).
    destruct (C23_angular b h cl Rmin Rmax nx g Hg _ (zero3 g) Hsh HL LL Lz) as (z1 & z2 & z3 & G1 & G2 & G3 & N1 & N2 & N3 & C).
    unfold lap_of. rewrite E2, F2, G2. apply (shells_ext g); auto; [now apply lincomb_length|]. intros ix Hix.
    rewrite shell_lin by auto. destruct (A ix Hix) as (_ & A2 & _), (B ix Hix) as (_ & B2 & _), (C ix Hix) as (_ & C2 & _).
    rewrite shell_lin in C2 by auto. rewrite (S2 a _ c _ _ _ (LS v ix Lv Hix) (LS w ix Lw Hix) A2 B2) in C2. congruence.
  - destruct (C26_filter_is_angular_only b h cl Rmin Rmax nx g Hg v Hsh Hx Lv) as (x1 & E1 & L1 & A).
    destruct (C26_filter_is_angular_only b h cl Rmin Rmax nx g Hg w Hsh Hx Lw) as (y1 & F1 & M1 & B).
    destruct (C26_filter_is_angular_only b h cl Rmin Rmax nx g Hg _ Hsh Hx LL) as (z1 & G1 & N1 & C).
    unfold filt_of. rewrite E1, F1, G1. apply (shells_ext g); auto; [now apply lincomb_length|]. intros ix Hix.
    rewrite shell_lin by auto. pose proof (A ix Hix) as A2. pose proof (B ix Hix) as B2. pose proof (C ix Hix) as C2.
    rewrite shell_lin in C2 by auto. rewrite (S3 a _ c _ _ _ (LS v ix Lv Hix) (LS w ix Lw Hix) A2 B2) in C2. congruence.
Qed.
Theorem sX_quadratic a v : length v = n -> sX_of g (lincomb a v 0 v) = lincomb (a * a) (sX_of g v) 0 (sX_of g v).
Proof.
  intros Lv. pose proof (lincomb_length a v 0 v n Lv Lv) as LL. assert (Lz : length (zero3 g) = n) by apply vec_length.
  destruct (gof_sizes b h cl Rmin Rmax nx g Hg) as (Eb & En & _ & El & Ep & _).
  destruct (C23_angular b h cl Rmin Rmax nx g Hg v (zero3 g) Hsh HL Lv Lz) as (x1 & x2 & x3 & E1 & E2 & E3 & L1 & L2 & L3 & A).
  destruct (C23_angular b h cl Rmin Rmax nx g Hg _ (zero3 g) Hsh HL LL Lz) as (z1 & z2 & z3 & G1 & G2 & G3 & N1 & N2 & N3 & C).
  unfold sX_of. rewrite E3, G3. apply (shells_ext g); auto; [now apply lincomb_length|]. intros ix Hix.
  rewrite shell_lin by auto. destruct (A ix Hix) as (_ & _ & A2), (C ix Hix) as (_ & _ & C2).
  rewrite shell_lin in C2 by auto. assert (LS : length (shell g v ix) = N) by (rewrite shell_length; auto; congruence).
  rewrite (sphereX_scale a _ _ LS A2) in C2. congruence.
Qed.
End G.
