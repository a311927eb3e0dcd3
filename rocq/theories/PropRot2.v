(** * Properties C74, C75: statements *)
From Coq Require Import Reals Lra.
From Verif Require Import Base BaseLemmas ForList Arith MFd MCheb MSphere MGrid MParams MField MEom
  Spec SphereSpec GridSpec SymSpec RotSpec LegSpec PGrid PTables PMake PSphere PSphere2 PSphereR PGridOp
  PropTables PropCoord PropGridOp PropRad PropGridFilter PConc PEom PEomOk PRk PEomR PropRk PDriver PropDriver PLinear PropSym PRot PropRot.
Local Open Scope R_scope.

(** what is assumed of the transforms: covariance of the real analysis; and if k is not constant, mmax = lmax and the
    same of the complex analysis *)
Definition covariant (b : build) (h : sht R) (s : ptmap) (u : phases) (e : eom R) : Prop :=
  lawful b h Ylm_profile /\ an_covariant b h s u /\
  (constant_k e \/ clawful b h Ylm_profile /\ anc_covariant b h s u /\ anc_conjugate h).
(** values independent of phi *)
Definition axisymmetric (g : grid R) (v : list R) : Prop :=
  length v = g_n3 g /\ forall ix it ip jp, (ix < g_nx g)%nat -> (it < g_nlat g)%nat -> (ip < g_nphi g)%nat -> (jp < g_nphi g)%nat ->
    nth (indx_R_th_ph g ix it ip) v 0 = nth (indx_R_th_ph g ix it jp) v 0.

Section G.
Variables (b : build) (h : sht R) (cl Rmin Rmax : R) (nx : nat) (g : grid R) (par : params R) (e : eom R).
Hypothesis Hg : grid_of b h cl Rmin Rmax nx g.
Hypothesis HL : (Z.of_nat (s_lmax h) < 2 ^ 31)%Z.
Hypothesis H8 : (use_cheb b = false -> 8 <= nx)%nat.
Hypothesis H2 : (use_cheb b = true -> 2 <= nx)%nat.
Hypothesis He : Eom_make g par = Ok e.
Local Notation nphi := (s_nphi h).
Local Notation nlat := (s_nlat h).

Lemma nx2 : (2 <= nx)%nat.
Proof. clear He. destruct (use_cheb b) eqn:E; [now apply H2|specialize (H8 eq_refl); lia]. Qed.

(** Rotating the data by any number j of grid spacings about the axis rotates the field and its velocity after any
    number of steps. *)
Theorem C74_rotations k j (f1 p1 f2 p2 : field R) : covariant b h (rotate nphi j) (rot_phase nphi j) e ->
  field_ok g f1 -> field_ok g p1 -> field_ok g f2 -> field_ok g p2 ->
  gmoved g (rotate nphi j) (fl_n f1) (fl_n f2) -> gmoved g (rotate nphi j) (fl_n p1) (fl_n p2) ->
  exists f1' p1' e1' f2' p2' e2', steps g k (f1, p1, e) = Ok (f1', p1', e1') /\ steps g k (f2, p2, e) = Ok (f2', p2', e2') /\
    gmoved g (rotate nphi j) (fl_n f1') (fl_n f2') /\ gmoved g (rotate nphi j) (fl_n p1') (fl_n p2').
Proof.
  intros (Hlaw & Han & Hc). pose proof nx2 as Hn. pose proof (lw_shapes _ _ _ Hlaw) as Hsh. pose proof (Eom_make_ok _ _ _ He) as Oe.
  destruct (gof_sizes b h cl Rmin Rmax nx g Hg) as (Eb & En & _ & El & Ep & _).
  assert (Hr : forall it ip, (it < g_nlat g)%nat -> (ip < g_nphi g)%nat -> (fst (rotate nphi j it ip) < g_nlat g)%nat /\ (snd (rotate nphi j it ip) < g_nphi g)%nat)
    by (rewrite El, Ep; apply rot_range).
  pose proof (ops_cov b h cl Rmin Rmax nx g Ylm_profile (rotate nphi j) (rot_phase nphi j) Hg Hlaw HL H8 H2 (rot_range h j) Han (rot_field h Ylm_profile j)) as OC.
  apply (steps_cov b h cl Rmin Rmax nx g Hg Hsh HL H8 H2 (rotate nphi j) Hr OC e Oe).
  - intros ix it ip Hx Ht Hp. destruct (Hr it ip Ht Hp) as [Ht' Hp'].
    rewrite !(coef_values b h cl Rmin Rmax nx g Hg par e) by auto. reflexivity.
  - destruct Hc as [Hc|(Hcl & Hanc & Hcj)]; [now right|left].
    apply (sX_cov b h cl Rmin Rmax nx g Ylm_profile (rotate nphi j) Hg Hlaw HL (rot_range h j)).
    apply (sphereX_cov b h cl Rmin Rmax nx g Ylm_profile (rotate nphi j) (rot_phase nphi j) Hg Hlaw HL H8 H2 (rot_range h j) Han (rot_field h Ylm_profile j)
      Hcl Hanc Hcj (rot_cfield h Ylm_profile j) (cos (2 * PI * INR j / INR nphi), sin (2 * PI * INR j / INR nphi))).
    + cbn [fst snd]. pose proof (sin2_cos2 (2 * PI * INR j / INR nphi)) as Q. unfold Rsqr in Q. lra.
    + intros l m. unfold rot_phase, cm, Rpr. cbn [fst snd]. rewrite plus_IZR.
      replace ((IZR m + 1) * (2 * PI * INR j / INR nphi)) with (IZR m * (2 * PI * INR j / INR nphi) + 2 * PI * INR j / INR nphi) by ring.
      rewrite cos_plus, sin_plus. apply (f_equal2 (@pair R R)); ring.
Qed.
(** data symmetric under such a rotation stay so *)
Theorem C74_symmetric_data k j (f p : field R) : covariant b h (rotate nphi j) (rot_phase nphi j) e -> field_ok g f -> field_ok g p ->
  gmoved g (rotate nphi j) (fl_n f) (fl_n f) -> gmoved g (rotate nphi j) (fl_n p) (fl_n p) ->
  exists f' p' e', steps g k (f, p, e) = Ok (f', p', e') /\
    gmoved g (rotate nphi j) (fl_n f') (fl_n f') /\ gmoved g (rotate nphi j) (fl_n p') (fl_n p').
Proof.
  intros Hc Of Op Mf Mp. destruct (C74_rotations k j f p f p Hc Of Op Of Op Mf Mp) as (f1 & p1 & e1 & f2 & p2 & e2 & E1 & E2 & A & B).
  rewrite E1 in E2. injection E2 as <- <- <-. exists f1, p1, e1. auto.
Qed.
Lemma axisymmetric_moved v : (0 < g_nphi g)%nat -> axisymmetric g v <-> gmoved g (rotate nphi 1) v v.
Proof.
  intros H0. destruct (gof_sizes b h cl Rmin Rmax nx g Hg) as (Eb & En & _ & El & Ep & _). split.
  - intros [Lv H]. split; auto. split; auto. intros ix it ip Hx Ht Hp. cbn [rotate fst snd]. apply H; auto. rewrite Ep in *. apply Nat.mod_upper_bound. lia.
  - intros (Lv & _ & H). split; auto.
    assert (G : forall ix it ip, (ix < g_nx g)%nat -> (it < g_nlat g)%nat -> (ip < g_nphi g)%nat -> nth (indx_R_th_ph g ix it ip) v 0 = nth (indx_R_th_ph g ix it 0) v 0).
    { intros ix it ip Hx Ht. induction ip as [|ip IH]; auto. intros Hp. rewrite <- IH by lia. symmetry.
      rewrite (H ix it ip Hx Ht) by lia. cbn [rotate fst snd]. rewrite <- Ep. rewrite Nat.mod_small by lia. now rewrite Nat.add_1_r. }
    intros ix it ip jp Hx Ht Hp Hp'. rewrite (G ix it ip), (G ix it jp) by auto. reflexivity.
Qed.
(** axisymmetric data stay axisymmetric *)
Theorem C74_axisymmetry k (f p : field R) : covariant b h (rotate nphi 1) (rot_phase nphi 1) e -> field_ok g f -> field_ok g p ->
  axisymmetric g (fl_n f) -> axisymmetric g (fl_n p) ->
  exists f' p' e', steps g k (f, p, e) = Ok (f', p', e') /\ axisymmetric g (fl_n f') /\ axisymmetric g (fl_n p').
Proof.
  intros Hc Of Op Af Ap. destruct (Nat.eq_dec (g_nphi g) 0) as [Z|NZ].
  - destruct Hc as (Hlaw & _). destruct (steps_iter b h cl Rmin Rmax nx g Hg (lw_shapes _ _ _ Hlaw) HL H8 H2 k e f p (Eom_make_ok _ _ _ He) Of Op) as (f' & p' & e' & E & I).
    exists f', p', e'. split; [exact E|].
    pose proof (iter_sized b h cl Rmin Rmax nx g Hg (lw_shapes _ _ _ Hlaw) HL H8 H2 e k (fl_n f, fl_n p) (Eom_make_ok _ _ _ He)) as S.
    rewrite <- I in S. destruct S as [S1 S2]; [destruct Of as (_ & ? & _), Op as (_ & ? & _); split; auto|]. cbn [fst snd] in *.
    split; split; auto; intros; lia.
  - assert (H0 : (0 < g_nphi g)%nat) by lia.
    destruct (C74_symmetric_data k 1 f p Hc Of Op) as (f' & p' & e' & E & A & B); [now apply axisymmetric_moved..|].
    exists f', p', e'. split; [exact E|]. split; now apply axisymmetric_moved.
Qed.

(** Reflecting the data at the equator reflects the field and its velocity after any number of steps. *)
Theorem C75_reflection k (f1 p1 f2 p2 : field R) : covariant b h (mirror nlat) mir_phase e -> symmetric_nodes h ->
  field_ok g f1 -> field_ok g p1 -> field_ok g f2 -> field_ok g p2 ->
  gmoved g (mirror nlat) (fl_n f1) (fl_n f2) -> gmoved g (mirror nlat) (fl_n p1) (fl_n p2) ->
  exists f1' p1' e1' f2' p2' e2', steps g k (f1, p1, e) = Ok (f1', p1', e1') /\ steps g k (f2, p2, e) = Ok (f2', p2', e2') /\
    gmoved g (mirror nlat) (fl_n f1') (fl_n f2') /\ gmoved g (mirror nlat) (fl_n p1') (fl_n p2').
Proof.
  intros (Hlaw & Han & Hc) Hsym. pose proof nx2 as Hn. pose proof (lw_shapes _ _ _ Hlaw) as Hsh. pose proof (Eom_make_ok _ _ _ He) as Oe.
  destruct (gof_sizes b h cl Rmin Rmax nx g Hg) as (Eb & En & _ & El & Ep & _).
  assert (Hr : forall it ip, (it < g_nlat g)%nat -> (ip < g_nphi g)%nat -> (fst (mirror nlat it ip) < g_nlat g)%nat /\ (snd (mirror nlat it ip) < g_nphi g)%nat)
    by (rewrite El, Ep; apply mir_range).
  pose proof (ops_cov b h cl Rmin Rmax nx g Ylm_profile (mirror nlat) mir_phase Hg Hlaw HL H8 H2 (mir_range h) Han (fun a a' => mir_field h a a' Hsym)) as OC.
  apply (steps_cov b h cl Rmin Rmax nx g Hg Hsh HL H8 H2 (mirror nlat) Hr OC e Oe).
  - intros ix it ip Hx Ht Hp. destruct (Hr it ip Ht Hp) as [Ht' Hp'].
    rewrite !(coef_values b h cl Rmin Rmax nx g Hg par e) by auto. cbn [mirror fst snd]. rewrite (mir_theta h) by (auto; congruence). now rewrite coef_mirror.
  - destruct Hc as [Hc|(Hcl & Hanc & Hcj)]; [now right|left].
    apply (sX_cov b h cl Rmin Rmax nx g Ylm_profile (mirror nlat) Hg Hlaw HL (mir_range h)).
    apply (sphereX_cov b h cl Rmin Rmax nx g Ylm_profile (mirror nlat) mir_phase Hg Hlaw HL H8 H2 (mir_range h) Han (fun a a' => mir_field h a a' Hsym)
      Hcl Hanc Hcj (fun a a' => mir_cfield h a a' Hsym) (-1, 0)).
    + cbn [fst snd]. ring.
    + intros l m. unfold mir_phase, cm, Rpr. cbn [fst snd]. rewrite Z.add_assoc, (Z.even_add _ 1). cbn [Z.even].
      destruct (Z.even (Z.of_nat l + m)); cbn; apply (f_equal2 (@pair R R)); ring.
Qed.
(** data even under reflection stay even; with even k and V and linear transforms, odd data stay odd *)
Theorem C75_even_data k (f p : field R) : covariant b h (mirror nlat) mir_phase e -> symmetric_nodes h -> field_ok g f -> field_ok g p ->
  gmoved g (mirror nlat) (fl_n f) (fl_n f) -> gmoved g (mirror nlat) (fl_n p) (fl_n p) ->
  exists f' p' e', steps g k (f, p, e) = Ok (f', p', e') /\
    gmoved g (mirror nlat) (fl_n f') (fl_n f') /\ gmoved g (mirror nlat) (fl_n p') (fl_n p').
Proof.
  intros Hc Hsym Of Op Mf Mp. destruct (C75_reflection k f p f p Hc Hsym Of Op Of Op Mf Mp) as (f1 & p1 & e1 & f2 & p2 & e2 & E1 & E2 & A & B).
  rewrite E1 in E2. injection E2 as <- <- <-. exists f1, p1, e1. auto.
Qed.
Theorem C75_odd_data k (f p : field R) : covariant b h (mirror nlat) mir_phase e -> symmetric_nodes h -> linear_sht h -> even_eqs e -> field_ok g f -> field_ok g p ->
  gmoved g (mirror nlat) (fl_n f) (negv (fl_n f)) -> gmoved g (mirror nlat) (fl_n p) (negv (fl_n p)) ->
  exists f' p' e', steps g k (f, p, e) = Ok (f', p', e') /\
    gmoved g (mirror nlat) (fl_n f') (negv (fl_n f')) /\ gmoved g (mirror nlat) (fl_n p') (negv (fl_n p')).
Proof.
  intros Hc Hsym Hln Hev Of Op Mf Mp. pose proof Hc as (Hlaw & _).
  set (f2 := with_n f (negv (fl_n f))). set (p2 := with_n p (negv (fl_n p))).
  assert (Of2 : field_ok g f2) by (destruct Of as (? & ? & ?); unfold field_ok, f2; cbn; unfold negv; rewrite map_length; auto).
  assert (Op2 : field_ok g p2) by (destruct Op as (? & ? & ?); unfold field_ok, p2; cbn; unfold negv; rewrite map_length; auto).
  destruct (C75_reflection k f p f2 p2 Hc Hsym Of Op Of2 Op2 Mf Mp) as (f1' & p1' & e1' & f2' & p2' & e2' & E1 & E2 & A & B).
  destruct (C73_sign_symmetry b h cl Rmin Rmax nx g Hg (lw_shapes _ _ _ Hlaw) HL H8 H2 Hln e k f p f2 p2 (Eom_make_ok _ _ _ He) Hev Of Op Of2 Op2 eq_refl eq_refl)
    as (f3 & p3 & e3 & f4 & p4 & e4 & E3 & E4 & C & D).
  rewrite E1 in E3. injection E3 as <- <- <-. rewrite E2 in E4. injection E4 as <- <- <-. exists f1', p1', e1'. rewrite <- C, <- D. auto.
Qed.
End G.
