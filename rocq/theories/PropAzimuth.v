(** * Property C79: in the free theory the azimuthal orders do not mix. *)
From Coq Require Import Reals Lra.
From Verif Require Import Base BaseLemmas ForList Arith MFd MCheb MSphere MGrid MParams MField MEom
  Spec SphereSpec GridSpec SymSpec RotSpec LegSpec PGrid PTables PMake PSphere PSphere2 PSphereR PGridOp PropFd2
  PropTables PropCoord PropGridOp PropRad PropGridFilter PConc PEom PEomOk PRk PEomR PropRk PDriver PropDriver PLinear PropSym PRot PropRot PropRot2
  PropSphereInst PropSymInst PRotInst PropRotInst.
Local Open Scope R_scope.

(** on every circle of constant radius and latitude the values are A cos(m phi) + B sin(m phi) *)
Definition pure_order (h : sht R) (g : grid R) (m : nat) (v : list R) : Prop :=
  length v = g_n3 g /\ exists A B : nat -> nat -> R, forall ix it ip, (ix < g_nx g)%nat -> (it < g_nlat g)%nat -> (ip < g_nphi g)%nat ->
    nth (indx_R_th_ph g ix it ip) v 0 = A ix it * cos (INR m * grid_phi h ip) + B ix it * sin (INR m * grid_phi h ip).

Section G.
Variables (b : build) (h : sht R) (cl Rmin Rmax : R) (nx : nat) (g : grid R) (par : params R) (e : eom R).
Hypothesis Hg : grid_of b h cl Rmin Rmax nx g.
Hypothesis HL : (Z.of_nat (s_lmax h) < 2 ^ 31)%Z.
Hypothesis H8 : (use_cheb b = false -> 8 <= nx)%nat.
Hypothesis H2 : (use_cheb b = true -> 2 <= nx)%nat.
Hypothesis He : Eom_make g par = Ok e.
Local Notation nphi := (s_nphi h).
Local Notation n := (g_n3 g).

Lemma phi_next m ip : (ip < nphi)%nat -> let x := INR m * grid_phi h ip in let d := INR m * (2 * PI / INR nphi) in
  cos (INR m * grid_phi h ((ip + 1) mod nphi)) = cos (x + d) /\ sin (INR m * grid_phi h ((ip + 1) mod nphi)) = sin (x + d).
Proof.
  intros Hp x d. assert (NP : 0 < INR nphi) by (apply lt_0_INR; lia). destruct (Nat.eq_dec (ip + 1) nphi) as [E|E].
  - rewrite E, Nat.mod_same by lia. assert (X : x + d = INR m * grid_phi h 0 + 2 * INR m * PI).
    { unfold x, d, grid_phi. assert (I1 : INR ip = INR nphi - 1) by (rewrite <- E, plus_INR; cbn; ring). rewrite I1. cbn [INR]. field. lra. }
    rewrite X, cos_period, sin_period. auto.
  - rewrite Nat.mod_small by lia. assert (X : x + d = INR m * grid_phi h (ip + 1)). { unfold x, d, grid_phi. rewrite plus_INR. cbn [INR]. field. lra. } rewrite X. auto.
Qed.
Lemma pure_from_zero m v w : length v = n ->
  (forall ix it ip, (ix < g_nx g)%nat -> (it < g_nlat g)%nat -> (ip < g_nphi g)%nat -> let d := INR m * (2 * PI / INR nphi) in
     nth (indx_R_th_ph g ix it ((ip + 1) mod nphi)) v 0 = cos d * nth (indx_R_th_ph g ix it ip) v 0 + sin d * nth (indx_R_th_ph g ix it ip) w 0 /\
     nth (indx_R_th_ph g ix it ((ip + 1) mod nphi)) w 0 = - sin d * nth (indx_R_th_ph g ix it ip) v 0 + cos d * nth (indx_R_th_ph g ix it ip) w 0) ->
  pure_order h g m v.
Proof.
  intros Lv H. destruct (gof_sizes b h cl Rmin Rmax nx g Hg) as (Eb & En & _ & El & Ep & _). split; auto.
  exists (fun ix it => nth (indx_R_th_ph g ix it 0) v 0), (fun ix it => nth (indx_R_th_ph g ix it 0) w 0).
  intros ix it ip Hx Ht Hp.
  enough (K : nth (indx_R_th_ph g ix it ip) v 0 = nth (indx_R_th_ph g ix it 0) v 0 * cos (INR m * grid_phi h ip) + nth (indx_R_th_ph g ix it 0) w 0 * sin (INR m * grid_phi h ip) /\
     nth (indx_R_th_ph g ix it ip) w 0 = - nth (indx_R_th_ph g ix it 0) v 0 * sin (INR m * grid_phi h ip) + nth (indx_R_th_ph g ix it 0) w 0 * cos (INR m * grid_phi h ip)) by apply K.
  induction ip as [|ip IH].
  - assert (Z : INR m * grid_phi h 0 = 0) by (unfold grid_phi; cbn [INR]; unfold Rdiv; ring). rewrite Z, cos_0, sin_0. split; ring.
  - destruct IH as [I1 I2]; [lia|]. destruct (H ix it ip Hx Ht ltac:(lia)) as [A B]. cbv zeta in A, B. destruct (phi_next m ip ltac:(lia)) as [C D]. cbv zeta in C, D.
    rewrite Nat.mod_small in A, B, C, D by lia. rewrite Nat.add_1_r in A, B, C, D. rewrite A, B, C, D, I1, I2, cos_plus, sin_plus. split; ring.
Qed.
Lemma quarter m v : pure_order h g m v -> exists w, length w = n /\ forall c s, c = cos (INR m * (2 * PI / INR nphi)) -> s = sin (INR m * (2 * PI / INR nphi)) ->
  gmoved g (rotate nphi 1) v (lincomb c v s w) /\ gmoved g (rotate nphi 1) w (lincomb (- s) v c w).
Proof.
  intros (Lv & A & B & Hv). destruct (gof_sizes b h cl Rmin Rmax nx g Hg) as (Eb & En & _ & El & Ep & _).
  destruct (grid_values g (fun ix it ip => - A ix it * sin (INR m * grid_phi h ip) + B ix it * cos (INR m * grid_phi h ip))) as (w & Lw & Hw).
  exists w. split; auto. intros c s Ec Es.
  assert (NX : forall ip, (ip < g_nphi g)%nat -> ((ip + 1) mod nphi < g_nphi g)%nat) by (intros; rewrite Ep; apply Nat.mod_upper_bound; lia).
  split; (split; [auto|]; split; [now apply lincomb_length|]); intros ix it ip Hx Ht Hp; cbn [rotate fst snd]; rewrite (nth_lincomb _ _ _ _ _ n) by (auto; now apply ix_R_th_ph_lt);
    rewrite !Hv, !Hw by auto; destruct (phi_next m ip ltac:(congruence)) as [-> ->]; rewrite cos_plus, sin_plus, <- Ec, <- Es; ring.
Qed.
Definition mkfield (v : list R) : field R := Fld [] v v v v n.
Lemma mkfield_ok v : length v = n -> field_ok g (mkfield v).
Proof. intros Lv. unfold field_ok, mkfield. cbn [fl_n fl_l fl_np1 fl_k fl_size]. auto. Qed.

(** ** C79.  Constant k and quadratic V.  If the field and its velocity have azimuthal order m, they have it after every step. *)
Theorem C79_azimuthal_orders_do_not_mix k m (f p : field R) : covariant b h (rotate nphi 1) (rot_phase nphi 1) e -> linear_sht h -> free_eqs e ->
  field_ok g f -> field_ok g p -> pure_order h g m (fl_n f) -> pure_order h g m (fl_n p) ->
  exists f' p' e', steps g k (f, p, e) = Ok (f', p', e') /\ pure_order h g m (fl_n f') /\ pure_order h g m (fl_n p').
Proof.
  intros Hc Hln Fe Of Op Pf Pp. pose proof (lw_shapes _ _ _ (proj1 Hc)) as Hsh. pose proof (Eom_make_ok _ _ _ He) as Oe.
  destruct (gof_sizes b h cl Rmin Rmax nx g Hg) as (Eb & En & _ & El & Ep & _).
  set (c := cos (INR m * (2 * PI / INR nphi))). set (s := sin (INR m * (2 * PI / INR nphi))).
  destruct (quarter m _ Pf) as (wf & Lwf & Qf). destruct (quarter m _ Pp) as (wp & Lwp & Qp).
  destruct (Qf c s eq_refl eq_refl) as [Rf1 Rf2]. destruct (Qp c s eq_refl eq_refl) as [Rp1 Rp2]. pose proof Pf as [Lf _]. pose proof Pp as [Lp _].
  assert (Ok3 : forall a b' v w, length v = n -> length w = n -> field_ok g (mkfield (lincomb a v b' w))) by (intros; apply mkfield_ok; now apply lincomb_length).
  pose proof (mkfield_ok wf Lwf) as Owf. pose proof (mkfield_ok wp Lwp) as Owp.
  destruct (C72_superposition b h cl Rmin Rmax nx g Hg Hsh HL H8 H2 Hln e k c s f p (mkfield wf) (mkfield wp) (mkfield (lincomb c (fl_n f) s wf)) (mkfield (lincomb c (fl_n p) s wp)) Oe Fe Of Op Owf Owp)
    as (f1 & p1 & e1 & f2 & p2 & e2 & f3 & p3 & e3 & E1 & E2 & E3 & Lin1 & Lin2); [now apply Ok3|now apply Ok3|reflexivity|reflexivity|].
  destruct (C72_superposition b h cl Rmin Rmax nx g Hg Hsh HL H8 H2 Hln e k (- s) c f p (mkfield wf) (mkfield wp) (mkfield (lincomb (- s) (fl_n f) c wf)) (mkfield (lincomb (- s) (fl_n p) c wp)) Oe Fe Of Op Owf Owp)
    as (f1' & p1' & e1' & f2' & p2' & e2' & f4 & p4 & e4 & E1' & E2' & E4 & Lin3 & Lin4); [now apply Ok3|now apply Ok3|reflexivity|reflexivity|].
  rewrite E1 in E1'. injection E1' as <- <- <-. rewrite E2 in E2'. injection E2' as <- <- <-.
  destruct (C74_rotations b h cl Rmin Rmax nx g par e Hg HL H8 H2 He k 1 f p _ _ Hc Of Op (Ok3 c s _ _ Lf Lwf) (Ok3 c s _ _ Lp Lwp) Rf1 Rp1) as (f1' & p1' & e1' & f3' & p3' & e3' & T1 & T2 & M1 & M2).
  rewrite E1 in T1. injection T1 as <- <- <-. rewrite E3 in T2. injection T2 as <- <- <-.
  destruct (C74_rotations b h cl Rmin Rmax nx g par e Hg HL H8 H2 He k 1 (mkfield wf) (mkfield wp) _ _ Hc Owf Owp (Ok3 (- s) c _ _ Lf Lwf) (Ok3 (- s) c _ _ Lp Lwp) Rf2 Rp2) as (f2' & p2' & e2' & f4' & p4' & e4' & T3 & T4 & M3 & M4).
  rewrite E2 in T3. injection T3 as <- <- <-. rewrite E4 in T4. injection T4 as <- <- <-.
  exists f1, p1, e1. split; [exact E1|]. rewrite Lin1 in M1. rewrite Lin2 in M2. rewrite Lin3 in M3. rewrite Lin4 in M4.
  destruct M1 as (L1 & _ & M1), M2 as (L2 & _ & M2), M3 as (L3 & _ & M3), M4 as (L4 & _ & M4). split.
  - apply (pure_from_zero m _ (fl_n f2)); auto. intros ix it ip Hx Ht Hp. cbv zeta. fold c s. specialize (M1 ix it ip Hx Ht Hp). specialize (M3 ix it ip Hx Ht Hp).
    cbn [rotate fst snd] in M1, M3. rewrite (nth_lincomb _ _ _ _ _ n) in M1 by (auto; now apply ix_R_th_ph_lt). rewrite (nth_lincomb _ _ _ _ _ n) in M3 by (auto; now apply ix_R_th_ph_lt). split; symmetry; auto.
  - apply (pure_from_zero m _ (fl_n p2)); auto. intros ix it ip Hx Ht Hp. cbv zeta. fold c s. specialize (M2 ix it ip Hx Ht Hp). specialize (M4 ix it ip Hx Ht Hp).
    cbn [rotate fst snd] in M2, M4. rewrite (nth_lincomb _ _ _ _ _ n) in M2 by (auto; now apply ix_R_th_ph_lt). rewrite (nth_lincomb _ _ _ _ _ n) in M4 by (auto; now apply ix_R_th_ph_lt). split; symmetry; auto.
Qed.
End G.


(** the hypotheses together, in both builds and layouts: nl = nm = 4 on 6 x 12 angles, 10 radial points, Kerr a = 7/10, data of
    order m = 2 that depend on radius and latitude *)
Example C79_nonvacuous cheb lay : exists h g par e f, let b := Build cheb lay false in
  covariant b h (rotate (s_nphi h) 1) (rot_phase (s_nphi h) 1) e /\ linear_sht h /\ (Z.of_nat (s_lmax h) < 2 ^ 31)%Z /\
  grid_of b h 50 2 50 10 g /\ g_n3 g = 720%nat /\ Eom_make g par = Ok e /\ free_eqs e /\ pr_bh_spin par = 7/10 /\
  field_ok g f /\ pure_order h g 2 (fl_n f) /\ nth (indx_R_th_ph g 3 2 0) (fl_n f) 0 = 12.
Proof.
  set (b := Build cheb lay false). destruct (demo_ct_ok 6) as (D1 & D2 & D3).
  destruct (C74_contract_satisfiable b 4 4 6 12 (demo_ct 6)) as (h & E1 & E2 & E3 & E4 & Ect & Hl & Hc & Hp & Hln & Hcj & Hrot & _); auto; try lia.
  assert (Hg : exists g, grid_of b h 50 2 50 10 g).
  { unfold grid_of. apply Grid_make_ok; [rewrite E3, Ect, D1; auto|]. intros _. left. lia. }
  destruct Hg as (g & Hg). set (par := Par 1 10 4 4 6 12 1 (1/10) 50 50 2 1 (7/10) 0 1 0 0 1 0 0 [] [] 0 0 0 0 0).
  destruct (Eom_make_total b h 50 2 50 10 g Hg par) as (e & He).
  pose proof (Eom_make_inv _ _ _ He) as I.
  destruct (gof_sizes b h 50 2 50 10 g Hg) as (_ & En & _ & El & Ep & _). rewrite E3 in El. rewrite E4 in Ep.
  assert (N3 : g_n3 g = 720%nat) by (unfold g_n3; rewrite En, El, Ep; reflexivity).
  assert (Fe : free_eqs e) by (destruct I as (cs & _ & -> & _); unfold free_eqs; cbn; auto 8).
  destruct (grid_values g (fun ix it ip => (INR ix + 1) * (INR it + 1) * cos (INR 2 * grid_phi h ip))) as (v & Lv & Hv).
  exists h, g, par, e, (mkfield g v). cbv zeta. fold b.
  split. { split; [exact Hl|]. split; [rewrite E4; apply Hrot|]. left. destruct I as (cs & _ & -> & _). unfold constant_k. cbn. auto. }
  split; [exact Hln|]. split; [rewrite E1; reflexivity|]. split; [exact Hg|]. split; [exact N3|]. split; [exact He|]. split; [exact Fe|]. split; [reflexivity|].
  split; [now apply mkfield_ok|]. cbn [mkfield fl_n]. split.
  - split; [exact Lv|]. exists (fun ix it => (INR ix + 1) * (INR it + 1)), (fun _ _ => 0). intros. rewrite Hv by auto. ring.
  - rewrite Hv by lia. unfold grid_phi. cbn [INR]. replace (2 * PI * 0 / INR (s_nphi h)) with 0 by (unfold Rdiv; ring). rewrite Rmult_0_r, cos_0. ring.
Qed.
