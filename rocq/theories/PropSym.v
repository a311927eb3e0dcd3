(** * Properties C72, C73: superposition and sign symmetry of the evolution (real arithmetic). *)
From Coq Require Import Reals Lra.
From Coquelicot Require Import Coquelicot.
From Verif Require Import Base BaseLemmas ForList Arith MFd MCheb MSphere MGrid MParams MField MEom
  Spec SphereSpec GridSpec RkSpec SymSpec PSum PGrid PTables PMake PSphere PSphere2 PSphereR PGridOp
  PropFd2 PropTables PropGridOp PropRad PropGridFilter PConc PEom PEomOk PRk PEomR PropRk PDriver PropDriver PLinear.
Local Open Scope R_scope.

Lemma iter_swap {A} (f : A -> A) k x : Nat.iter (S k) f x = Nat.iter k f (f x).
Proof. induction k; [reflexivity|]. change (f (Nat.iter (S k) f x) = f (Nat.iter k f (f x))). now rewrite IHk. Qed.

Lemma iter_ext {A} (Q : A -> Prop) (f f' : A -> A) k x : (forall u, Q u -> f u = f' u) -> (forall u, Q u -> Q (f' u)) -> Q x ->
  Nat.iter k f x = Nat.iter k f' x.
Proof.
  intros H1 H2 Hx. assert (Hk : forall k, Q (Nat.iter k f' x)) by (intros j; induction j; [exact Hx|apply (H2 (Nat.iter j f' x)); auto]).
  induction k as [|k IH]; [reflexivity|]. change (f (Nat.iter k f x) = f' (Nat.iter k f' x)). rewrite IH. auto.
Qed.

Section G.
Variables (b : build) (h : sht R) (cl Rmin Rmax : R) (nx : nat) (g : grid R).
Hypothesis Hg : grid_of b h cl Rmin Rmax nx g.
Hypothesis Hsh : shapes h.
Hypothesis HL : (Z.of_nat (s_lmax h) < 2 ^ 31)%Z.
Hypothesis H8 : (use_cheb b = false -> 8 <= nx)%nat.
Hypothesis H2 : (use_cheb b = true -> 2 <= nx)%nat.
Local Notation n := (g_n3 g).

Definition sized (u : state R) : Prop := length (fst u) = n /\ length (snd u) = n.
Lemma rhs_sized e u : eom_ok g e -> sized u -> sized (rhs_of g e u).
Proof.
  intros Oe [L1 L2]. split; cbn; auto. destruct Oe as (En & Lc & Os).
  now destruct (set_k_ok b h cl Rmin Rmax nx g Hg Hsh HL H8 H2 e (e_scr e) (fst u) (snd u) (fst u) (fst u)) as [_ L]; [unfold eom_ok; auto|auto..].
Qed.
Lemma axpy2_sized c k u : sized k -> sized u -> sized (axpy2 c k u).
Proof. intros [A B] [C D]. split; cbn; now apply axpy_length. Qed.
Lemma rk4_sized e u dt : eom_ok g e -> sized u -> sized (rk4 (rhs_of g e) dt u).
Proof. intros Oe Su. unfold rk4. repeat first [apply axpy2_sized|apply rhs_sized]; auto. Qed.
Lemma filt_sized u : sized u -> sized (filt_of g (fst u), filt_of g (snd u)).
Proof. intros [A B]. split; cbn [fst snd]; now apply (filter_total b h cl Rmin Rmax nx g Hg Hsh H8 H2). Qed.
Lemma advance_sized e u : eom_ok g e -> sized u -> sized (advance g e u).
Proof. intros Oe Su. apply rk4_sized; auto. now apply filt_sized. Qed.
Lemma iter_sized e k u : eom_ok g e -> sized u -> sized (Nat.iter k (advance g e) u).
Proof. intros Oe Su. induction k; auto. now apply advance_sized. Qed.
Lemma advance_scr e s u : eom_ok g e -> scr_ok n s -> sized u -> advance g (with_scr e s) u = advance g e u.
Proof.
  intros Oe Os Su. destruct (filt_sized u Su) as [A B]. cbn [fst snd] in A, B. unfold advance. cbn [with_scr e_dt]. apply rk4_ext_len with (n := n); auto.
  intros [x y] Lx Ly. cbn [fst snd] in *. unfold rhs_of. cbn [fst snd]. unfold prhs_of. assert (Lz : length (zero3 g) = n) by apply vec_length.
  destruct (set_k_ok b h cl Rmin Rmax nx g Hg Hsh HL H8 H2 e s x y (zero3 g) (zero3 g) Oe Os Lx Ly Lz Lz) as [-> L']. unfold prhs_of in *. auto.
Qed.
(** k steps of the main loop hold the k-fold iterate of [advance] *)
Opaque advance.
Lemma steps_iter k : forall e (f p : field R), eom_ok g e -> field_ok g f -> field_ok g p ->
  exists f' p' e', steps g k (f, p, e) = Ok (f', p', e') /\ (fl_n f', fl_n p') = Nat.iter k (advance g e) (fl_n f, fl_n p).
Proof.
  induction k as [|k IH]; intros e f p Oe Of Op; [exists f, p, e; auto|]. cbn [steps].
  destruct (time_step_closed b h cl Rmin Rmax nx g Hg Hsh HL H8 H2 e f p Oe Of Op) as (f' & p' & s & E & Os & Of' & Op' & _ & _ & _ & _ & V).
  change (rk4 (rhs_of g e) (e_dt e) (filt_of g (fl_n f), filt_of g (fl_n p))) with (advance g e (fl_n f, fl_n p)) in V.
  rewrite E. cbn [bind]. destruct Of' as (S1 & K1 & K2 & K3 & K4). destruct Op' as (T1 & M1 & M2 & M3 & M4).
  rewrite C46_shift by congruence. cbn [bind]. rewrite C46_shift by congruence. cbn [bind].
  assert (Oe' : eom_ok g (with_scr e s)) by (destruct Oe as (? & ? & _); unfold eom_ok; cbn; auto).
  destruct (IH (with_scr e s) (with_n f' (fl_np1 f')) (with_n p' (fl_np1 p'))) as (f2 & p2 & e2 & E2 & I2); auto; [unfold field_ok; cbn; auto..|].
  exists f2, p2, e2. split; [exact E2|]. rewrite I2. cbn [with_n fl_n]. rewrite V.
  rewrite iter_swap.
  assert (S0 : sized (advance g e (fl_n f, fl_n p))). { apply advance_sized; auto. destruct Of as (_ & ? & _), Op as (_ & ? & _). split; auto. }
  refine (iter_ext sized _ _ _ _ _ _ S0).
  - intros u Su. now apply advance_scr.
  - intros u Su. now apply advance_sized.
Qed.

(** the seven derivative arrays entering the slope of p at cell i *)
Lemma prhs_at e f p i : eom_ok g e -> length f = n -> length p = n -> (i < n)%nat ->
  nth i (prhs_of g e f p) 0 = p_rhs e (nth i (e_coef e) coef0) (nth i f 0) (nth i p 0) (nth i (dr_of g f) 0) (nth i (dr_of g p) 0) (nth i (drr_of g f) 0)
     (nth i (dphi_of g f) 0) (nth i (dr_of g (dphi_of g f)) 0) (nth i (lap_of g f) 0) (nth i (sX_of g f) 0).
Proof.
  intros Oe Lf Lp Hi. pose proof Oe as (En & Lc & Os).
  destruct (set_k_ok b h cl Rmin Rmax nx g Hg Hsh HL H8 H2 e (e_scr e) f p f f Oe Os Lf Lp Lf Lf) as [E _].
  destruct (set_k_inv _ _ _ _ _ _ _ _ _ E) as (s & Es & _ & _ & _ & _ & H). cbn [with_scr e_scr e_n e_coef] in *.
  destruct (k_sections_ok b h cl Rmin Rmax nx g Hg Hsh HL H8 H2 f p (e_scr e) Lf Lp Os) as [Ek _]. rewrite Ek in Es. injection Es as <-.
  rewrite <- En in Hi. destruct (H i Hi) as (fi & pi & c & d1 & d2 & d3 & d4 & d5 & d6 & d7 & A1 & A2 & A3 & A4 & A5 & A6 & A7 & A8 & A9 & A10 & A11 & A12).
  unfold scr_of in *. cbn [s_dr_f s_dr_p s_dr_dr_f s_dphi_f s_dphi_dr_f s_lap_f s_sphereX_f] in *.
  rewrite (nth_error_nth _ _ 0 A1), (nth_error_nth _ _ 0 A2), (nth_error_nth _ _ coef0 A3), (nth_error_nth _ _ 0 A4), (nth_error_nth _ _ 0 A5), (nth_error_nth _ _ 0 A6),
    (nth_error_nth _ _ 0 A7), (nth_error_nth _ _ 0 A8), (nth_error_nth _ _ 0 A9), (nth_error_nth _ _ 0 A10), (nth_error_nth _ _ 0 A12). reflexivity.
Qed.

Section Lin.
Hypothesis Hln : linear_sht h.
Local Notation OL := (ops_linear b h cl Rmin Rmax nx g Hg Hsh HL H8 H2 Hln).

(** ** C72: superposition *)
Definition lin2 (a : R) (u : state R) (c : R) (w : state R) : state R := (lincomb a (fst u) c (fst w), lincomb a (snd u) c (snd w)).
Lemma lin2_sized a u c w : sized u -> sized w -> sized (lin2 a u c w).
Proof. intros [A B] [C D]. split; cbn; now apply lincomb_length. Qed.
Lemma axpy2_lin a u c w t k1 k2 : sized u -> sized w -> sized k1 -> sized k2 ->
  axpy2 t (lin2 a k1 c k2) (lin2 a u c w) = lin2 a (axpy2 t k1 u) c (axpy2 t k2 w).
Proof. intros [A B] [C D] [E F] [P Q]. unfold axpy2, lin2. cbn [fst snd]. f_equal; now apply (axpy_lincomb _ _ _ _ _ _ _ n). Qed.

Definition free_eqs (e : eom R) : Prop := e_km1 e = 0 /\ e_k1 e = 0 /\ e_k2 e = 0 /\ e_v3 e = 0 /\ e_v4 e = 0.
Lemma rhs_lin e a u c w : eom_ok g e -> free_eqs e -> sized u -> sized w ->
  rhs_of g e (lin2 a u c w) = lin2 a (rhs_of g e u) c (rhs_of g e w).
Proof.
  intros Oe (Z1 & Z2 & Z3 & Z4 & Z5) Su Sw. pose proof Su as [L1 L2]. pose proof Sw as [L3 L4]. destruct OL as (D1 & D2 & D3 & D4 & _).
  unfold rhs_of, lin2. cbn [fst snd]. f_equal.
  pose proof (rhs_sized e u Oe Su) as [_ R1]. pose proof (rhs_sized e w Oe Sw) as [_ R2]. cbn [rhs_of snd] in R1, R2.
  assert (M1 := lincomb_length a (fst u) c (fst w) n L1 L3). assert (M2 := lincomb_length a (snd u) c (snd w) n L2 L4).
  destruct (ops_ok b h cl Rmin Rmax nx g Hg Hsh HL H8 H2 (fst u) (fst u) L1 L1) as (_ & _ & _ & _ & _ & P1 & P2 & P3 & P4 & P5).
  destruct (ops_ok b h cl Rmin Rmax nx g Hg Hsh HL H8 H2 (fst w) (fst w) L3 L3) as (_ & _ & _ & _ & _ & Q1 & Q2 & Q3 & Q4 & Q5).
  destruct (ops_ok b h cl Rmin Rmax nx g Hg Hsh HL H8 H2 (snd u) (fst u) L2 L1) as (_ & _ & _ & _ & _ & P6 & _).
  destruct (ops_ok b h cl Rmin Rmax nx g Hg Hsh HL H8 H2 (snd w) (fst u) L4 L1) as (_ & _ & _ & _ & _ & Q6 & _).
  destruct (ops_ok b h cl Rmin Rmax nx g Hg Hsh HL H8 H2 (dphi_of g (fst u)) (fst u) P3 L1) as (_ & _ & _ & _ & _ & P7 & _).
  destruct (ops_ok b h cl Rmin Rmax nx g Hg Hsh HL H8 H2 (dphi_of g (fst w)) (fst u) Q3 L1) as (_ & _ & _ & _ & _ & Q7 & _).
  apply (lincomb_ext _ _ _ _ _ n); auto.
  - pose proof (rhs_sized e (lincomb a (fst u) c (fst w), lincomb a (snd u) c (snd w)) Oe) as S. destruct S as [_ S]; [split; auto|]. exact S.
  - intros i Hi. rewrite !prhs_at by auto. rewrite D1, D1, D2, D3, D1, D4 by auto. rewrite !(nth_lincomb _ _ _ _ _ n) by auto.
    assert (I : forall x, inverse_k e x = / e_k0 e). { intros x. unfold inverse_k. R_ops. rewrite Z1, Z2, Z3. unfold Rdiv. rewrite !Rmult_0_l, !Rplus_0_r. ring. }
    assert (K : forall x, kprime e x = 0). { intros x. unfold kprime. R_ops. rewrite Z1, Z2, Z3. unfold Rdiv. ring. }
    unfold p_rhs, vprime. rewrite !I, !K. R_ops. rewrite Z4, Z5. unfold Rdiv. rewrite !Rmult_0_l. ring.
Qed.
Lemma advance_lin e a u c w : eom_ok g e -> free_eqs e -> sized u -> sized w ->
  advance g e (lin2 a u c w) = lin2 a (advance g e u) c (advance g e w).
Proof.
  intros Oe Fe Su Sw. destruct OL as (_ & _ & _ & _ & D5). pose proof Su as [A1 A2]. pose proof Sw as [B1 B2].
  Transparent advance. unfold advance. Opaque advance.
  assert (E0 : (filt_of g (fst (lin2 a u c w)), filt_of g (snd (lin2 a u c w))) = lin2 a (filt_of g (fst u), filt_of g (snd u)) c (filt_of g (fst w), filt_of g (snd w))).
  { unfold lin2. cbn [fst snd]. f_equal; now apply D5. }
  rewrite E0. clear E0. pose proof (filt_sized u Su) as S1. pose proof (filt_sized w Sw) as S2.
  set (x := (filt_of g (fst u), filt_of g (snd u))) in *. set (y := (filt_of g (fst w), filt_of g (snd w))) in *. clearbody x y.
  unfold rk4. cbv zeta.
  rewrite !rhs_lin by (auto; repeat first [apply axpy2_sized|apply rhs_sized|apply lin2_sized]; auto).
  repeat first [rewrite axpy2_lin by (repeat first [apply axpy2_sized|apply rhs_sized]; auto) | rewrite rhs_lin by (repeat first [assumption|apply axpy2_sized|apply rhs_sized]; auto)].
  reflexivity.
Qed.

(** With constant k and quadratic V the scheme is linear: the evolution of a superposition is the superposition
    of the evolutions, for any number of steps. *)
Theorem C72_superposition e k a c (f1 p1 f2 p2 f3 p3 : field R) : eom_ok g e -> free_eqs e ->
  field_ok g f1 -> field_ok g p1 -> field_ok g f2 -> field_ok g p2 -> field_ok g f3 -> field_ok g p3 ->
  fl_n f3 = lincomb a (fl_n f1) c (fl_n f2) -> fl_n p3 = lincomb a (fl_n p1) c (fl_n p2) ->
  exists f1' p1' e1' f2' p2' e2' f3' p3' e3',
    steps g k (f1, p1, e) = Ok (f1', p1', e1') /\ steps g k (f2, p2, e) = Ok (f2', p2', e2') /\ steps g k (f3, p3, e) = Ok (f3', p3', e3') /\
    fl_n f3' = lincomb a (fl_n f1') c (fl_n f2') /\ fl_n p3' = lincomb a (fl_n p1') c (fl_n p2').
Proof.
  intros Oe Fe O1 Q1 O2 Q2 O3 Q3 Ef Ep.
  destruct (steps_iter k e f1 p1 Oe O1 Q1) as (f1' & p1' & e1' & E1 & I1).
  destruct (steps_iter k e f2 p2 Oe O2 Q2) as (f2' & p2' & e2' & E2 & I2).
  destruct (steps_iter k e f3 p3 Oe O3 Q3) as (f3' & p3' & e3' & E3 & I3).
  exists f1', p1', e1', f2', p2', e2', f3', p3', e3'. split; [exact E1|]. split; [exact E2|]. split; [exact E3|].
  assert (S1 : sized (fl_n f1, fl_n p1)) by (destruct O1 as (_ & ? & _), Q1 as (_ & ? & _); split; auto).
  assert (S2 : sized (fl_n f2, fl_n p2)) by (destruct O2 as (_ & ? & _), Q2 as (_ & ? & _); split; auto).
  assert (Q : forall k, Nat.iter k (advance g e) (fl_n f3, fl_n p3) = lin2 a (Nat.iter k (advance g e) (fl_n f1, fl_n p1)) c (Nat.iter k (advance g e) (fl_n f2, fl_n p2))).
  { intros j. induction j as [|j IH]; [cbn [Nat.iter nat_rect]; now rewrite Ef, Ep|].
    change (advance g e (Nat.iter j (advance g e) (fl_n f3, fl_n p3)) = lin2 a (advance g e (Nat.iter j (advance g e) (fl_n f1, fl_n p1))) c (advance g e (Nat.iter j (advance g e) (fl_n f2, fl_n p2)))).
    rewrite IH. apply advance_lin; auto; now apply iter_sized. }
  rewrite Q, <- I1, <- I2 in I3. unfold lin2 in I3. cbn [fst snd] in I3. split; congruence.
Qed.

(** ** C73: sign symmetry *)
Definition neg2 (u : state R) : state R := (negv (fst u), negv (snd u)).
Definition even_eqs (e : eom R) : Prop := e_km1 e = 0 /\ e_k1 e = 0 /\ e_v3 e = 0.
Lemma neg2_lin u : neg2 u = lin2 (-1) u 0 u.
Proof. unfold neg2, lin2. now rewrite !negv_lincomb. Qed.
Lemma rhs_neg e u : eom_ok g e -> even_eqs e -> sized u -> rhs_of g e (neg2 u) = neg2 (rhs_of g e u).
Proof.
  intros Oe (Z1 & Z2 & Z3) Su. rewrite !neg2_lin. pose proof Su as [L1 L2]. destruct OL as (D1 & D2 & D3 & D4 & _).
  pose proof (sX_quadratic b h cl Rmin Rmax nx g Hg Hsh HL H8 H2 Hln (-1) (fst u) L1) as D5.
  unfold rhs_of, lin2. cbn [fst snd]. f_equal.
  pose proof (rhs_sized e u Oe Su) as [_ R1]. cbn [rhs_of snd] in R1.
  assert (M1 := lincomb_length (-1) (fst u) 0 (fst u) n L1 L1). assert (M2 := lincomb_length (-1) (snd u) 0 (snd u) n L2 L2).
  destruct (ops_ok b h cl Rmin Rmax nx g Hg Hsh HL H8 H2 (fst u) (fst u) L1 L1) as (_ & _ & _ & _ & _ & P1 & P2 & P3 & P4 & P5).
  destruct (ops_ok b h cl Rmin Rmax nx g Hg Hsh HL H8 H2 (snd u) (fst u) L2 L1) as (_ & _ & _ & _ & _ & P6 & _).
  destruct (ops_ok b h cl Rmin Rmax nx g Hg Hsh HL H8 H2 (dphi_of g (fst u)) (fst u) P3 L1) as (_ & _ & _ & _ & _ & P7 & _).
  apply (lincomb_ext _ _ _ _ _ n); auto.
  - pose proof (rhs_sized e (lincomb (-1) (fst u) 0 (fst u), lincomb (-1) (snd u) 0 (snd u)) Oe) as S. destruct S as [_ S]; [split; auto|]. exact S.
  - intros i Hi. rewrite !prhs_at by auto. rewrite D1, D1, D2, D3, D1, D4, D5 by auto. rewrite !(nth_lincomb _ _ _ _ _ n) by auto.
    set (x := nth i (fst u) 0).
    assert (I : inverse_k e (-1 * x + 0 * x) = inverse_k e x).
    { unfold inverse_k. R_ops. rewrite Z1, Z2. unfold Rdiv. rewrite !Rmult_0_l. do 2 f_equal. ring. }
    assert (K : kprime e (-1 * x + 0 * x) = - kprime e x). { unfold kprime. R_ops. rewrite Z1, Z2. unfold Rdiv. ring. }
    unfold p_rhs, vprime. rewrite I, K. R_ops. rewrite Z3. unfold Rdiv. ring.
Qed.
Lemma advance_neg e u : eom_ok g e -> even_eqs e -> sized u -> advance g e (neg2 u) = neg2 (advance g e u).
Proof.
  intros Oe Fe Su. destruct OL as (_ & _ & _ & _ & D5). pose proof Su as [A1 A2].
  Transparent advance. unfold advance. Opaque advance.
  assert (E0 : (filt_of g (fst (neg2 u)), filt_of g (snd (neg2 u))) = neg2 (filt_of g (fst u), filt_of g (snd u))).
  { unfold neg2. cbn [fst snd]. rewrite !negv_lincomb. f_equal; now apply D5. }
  rewrite E0. clear E0. pose proof (filt_sized u Su) as S1. set (x := (filt_of g (fst u), filt_of g (snd u))) in *. clearbody x.
  assert (AX : forall t k u, sized k -> sized u -> axpy2 t (neg2 k) (neg2 u) = neg2 (axpy2 t k u)).
  { intros t k w Sk Sw. rewrite !neg2_lin. now apply axpy2_lin. }
  unfold rk4. cbv zeta.
  repeat first [rewrite AX by (repeat first [assumption|apply axpy2_sized|apply rhs_sized]; auto) | rewrite rhs_neg by (repeat first [assumption|apply axpy2_sized|apply rhs_sized]; auto)].
  reflexivity.
Qed.
(** With k even in the field (km1 = k1 = 0) and V even (V3 = 0): changing the sign of both fields changes the sign
    of the whole evolution. *)
Theorem C73_sign_symmetry e k (f1 p1 f2 p2 : field R) : eom_ok g e -> even_eqs e ->
  field_ok g f1 -> field_ok g p1 -> field_ok g f2 -> field_ok g p2 ->
  fl_n f2 = negv (fl_n f1) -> fl_n p2 = negv (fl_n p1) ->
  exists f1' p1' e1' f2' p2' e2',
    steps g k (f1, p1, e) = Ok (f1', p1', e1') /\ steps g k (f2, p2, e) = Ok (f2', p2', e2') /\
    fl_n f2' = negv (fl_n f1') /\ fl_n p2' = negv (fl_n p1').
Proof.
  intros Oe Fe O1 Q1 O2 Q2 Ef Ep.
  destruct (steps_iter k e f1 p1 Oe O1 Q1) as (f1' & p1' & e1' & E1 & I1).
  destruct (steps_iter k e f2 p2 Oe O2 Q2) as (f2' & p2' & e2' & E2 & I2).
  exists f1', p1', e1', f2', p2', e2'. split; [exact E1|]. split; [exact E2|].
  assert (S1 : sized (fl_n f1, fl_n p1)) by (destruct O1 as (_ & ? & _), Q1 as (_ & ? & _); split; auto).
  assert (Q : forall k, Nat.iter k (advance g e) (fl_n f2, fl_n p2) = neg2 (Nat.iter k (advance g e) (fl_n f1, fl_n p1))).
  { intros j. induction j as [|j IH]; [cbn [Nat.iter nat_rect]; now rewrite Ef, Ep|].
    change (advance g e (Nat.iter j (advance g e) (fl_n f2, fl_n p2)) = neg2 (advance g e (Nat.iter j (advance g e) (fl_n f1, fl_n p1)))).
    rewrite IH. apply advance_neg; auto. now apply iter_sized. }
  rewrite Q, <- I1 in I2. unfold neg2 in I2. cbn [fst snd] in I2. split; congruence.
Qed.
End Lin.
End G.
