(** * Property C76: the time step is fourth-order accurate (local error O(dt^5)). *)
From Coq Require Import Reals Lra.
From Coquelicot Require Import Coquelicot.
From Verif Require Import Base BaseLemmas ForList Arith MFd MCheb MSphere MGrid MParams MField MEom
  Spec SphereSpec GridSpec EomSpec RkSpec SymSpec OrderSpec PSum PGrid PTables PMake PSphere PSphere2 PSphereR PGridOp
  PropFd2 PropTables PropGridOp PropRad PropGridFilter PConc PEom PEomOk PRk PEomR PropRk PDriver PropDriver PLinear PropSym PJet PJet2 PLinOde.
Local Open Scope R_scope.

(** ** a linear functional on arrays is a sum over the entries *)
Definition linfun (n : nat) (L : list R -> R) : Prop := forall a v c w, length v = n -> length w = n -> L (lincomb a v c w) = a * L v + c * L w.
Definition unitv (n j : nat) : list R := map (fun i => if Nat.eqb i j then 1 else 0) (seq 0 n).
Lemma unitv_length n j : length (unitv n j) = n.
Proof. unfold unitv. now rewrite map_length, seq_length. Qed.
Lemma nth_ms (f : nat -> R) n i : (i < n)%nat -> nth i (map f (seq 0 n)) 0 = f i.
Proof. intros H. rewrite (nth_indep _ 0 (f 0%nat)) by now rewrite map_length, seq_length. rewrite (map_nth f), seq_nth by auto. reflexivity. Qed.
Lemma len_ms (f : nat -> R) n : length (map f (seq 0 n)) = n.
Proof. now rewrite map_length, seq_length. Qed.
Lemma nth_unitv n j i : (i < n)%nat -> nth i (unitv n j) 0 = if Nat.eqb i j then 1 else 0.
Proof. intros H. unfold unitv. now rewrite nth_ms. Qed.
Lemma linfun_sum n L v : linfun n L -> length v = n -> L v = psum n (fun j => L (unitv n j) * nth j v 0) 1.
Proof.
  intros HL Lv. set (cut := fun m => map (fun i => if (i <? m)%nat then nth i v 0 else 0) (seq 0 n)).
  assert (Lc : forall m, length (cut m) = n) by (intros; apply len_ms).
  assert (Nc : forall m i, (i < n)%nat -> nth i (cut m) 0 = if (i <? m)%nat then nth i v 0 else 0) by (intros m i Hi; unfold cut; now rewrite nth_ms).
  assert (X : forall m, (m <= n)%nat -> L (cut m) = psum m (fun j => L (unitv n j) * nth j v 0) 1).
  { induction m as [|m IH]; intros Hm.
    - assert (E : cut 0%nat = lincomb 0 v 0 v).
      { apply (lincomb_ext _ _ _ _ _ n); auto. intros i Hi. rewrite Nc by auto. cbn. ring. }
      rewrite E, HL by auto. cbn. ring.
    - assert (E : cut (S m) = lincomb 1 (cut m) (nth m v 0) (unitv n m)).
      { apply (lincomb_ext _ _ _ _ _ n); auto; [apply unitv_length|]. intros i Hi. rewrite nth_unitv, !Nc by auto.
        destruct (Nat.eqb_spec i m) as [->|Hn].
        - destruct (Nat.ltb_spec m (S m)); [|lia]. destruct (Nat.ltb_spec m m); [lia|]. ring.
        - destruct (Nat.ltb_spec i (S m)), (Nat.ltb_spec i m); try lia; ring. }
      rewrite E, HL, IH by (auto; try lia; apply unitv_length). cbn [psum]. rewrite pow1. ring. }
  rewrite <- (X n) by lia. f_equal. apply (nth_ext _ _ 0 0); [now rewrite Lc|]. rewrite Lv. intros i Hi.
  rewrite Nc by auto. destruct (Nat.ltb_spec i n); [auto|lia].
Qed.
Lemma jet_linf n y (L : list R -> R) : szd n y -> linfun n L -> jet n y (fun u => L (fst u)).
Proof.
  intros Sy HL. apply (jet_ext n y (fun u => psum n (fun j => L (unitv n j) * cmp n u j) 1)); auto.
  - intros u [A B]. rewrite (linfun_sum n L (fst u)) by auto. apply psum_ext. intros j Hj. now rewrite cmp_fst.
  - apply jet_lin. intros. apply jet_cmp.
Qed.
Lemma jet_lins n y (L : list R -> R) : szd n y -> linfun n L -> jet n y (fun u => L (snd u)).
Proof.
  intros Sy HL. apply (jet_ext n y (fun u => psum n (fun j => L (unitv n j) * cmp n u (n + j)) 1)); auto.
  - intros u [A B]. rewrite (linfun_sum n L (snd u)) by auto. apply psum_ext. intros j Hj. now rewrite cmp_snd.
  - apply jet_lin. intros. apply jet_cmp.
Qed.

Section G.
Variables (b : build) (h : sht R) (cl Rmin Rmax : R) (nx : nat) (g : grid R).
Hypothesis Hg : grid_of b h cl Rmin Rmax nx g.
Hypothesis Hsh : shapes h.
Hypothesis HL : (Z.of_nat (s_lmax h) < 2 ^ 31)%Z.
Hypothesis H8 : (use_cheb b = false -> 8 <= nx)%nat.
Hypothesis H2 : (use_cheb b = true -> 2 <= nx)%nat.
Hypothesis Hln : linear_sht h.
Local Notation n := (g_n3 g).
Local Notation N := (s_nlat h * s_nphi h)%nat.
Local Notation OL := (ops_linear b h cl Rmin Rmax nx g Hg Hsh HL H8 H2 Hln).

Lemma op_linfun op i : grid_linear g op -> (forall v, length v = n -> length (op v) = n) -> (i < n)%nat -> linfun n (fun v => nth i (op v) 0).
Proof. intros G Lo Hi a v c w Lv Lw. rewrite G by auto. now rewrite (nth_lincomb _ _ _ _ _ n) by auto. Qed.
(** sphereX is a quadratic form in the data *)
Lemma sX_forms i : (i < n)%nat -> exists L1 L2 L3 L4 L5, linfun n L1 /\ linfun n L2 /\ linfun n L3 /\ linfun n L4 /\ linfun n L5 /\
  forall v, length v = n -> nth i (sX_of g v) 0 = - (L1 v * L2 v - L3 v * L4 v) + L5 v * L5 v.
Proof.
  intros Hi. destruct (gof_sizes b h cl Rmin Rmax nx g Hg) as (Eb & En & _ & El & Ep & Hs & _).
  assert (Lz : length (zero3 g) = n) by apply vec_length.
  assert (NE : (g_nlat g * g_nphi g)%nat = N) by congruence.
  assert (NP : (0 < N)%nat) by (unfold g_n3 in Hi; rewrite El, Ep in Hi; nia).
  set (ix := (i / N)%nat). set (k := (i mod N)%nat). assert (Ei : i = (N * ix + k)%nat) by (apply Nat.div_mod; lia).
  assert (Hk : (k < N)%nat) by (apply Nat.mod_upper_bound; lia).
  assert (Hix : (ix < g_nx g)%nat). { apply Nat.div_lt_upper_bound; [lia|]. unfold g_n3 in Hi. rewrite El, Ep in Hi. nia. }
  clearbody ix k. subst i.
  set (rs := fun v => match raise b (g_sphere g) (shell g v ix) (vec N c0) with Ok r => nth k r (0, 0) | _ => (0, 0) end).
  set (lw := fun v => match lower b (g_sphere g) (shell g v ix) (vec N c0) with Ok r => nth k r (0, 0) | _ => (0, 0) end).
  set (dp := fun v => match partial_phi b (g_sphere g) (shell g v ix) (sph0 g) with Ok r => nth k r 0 | _ => 0 end).
  assert (LS : forall v, length v = n -> length (shell g v ix) = N) by (intros; rewrite shell_length; auto; congruence).
  assert (L0 : length (sph0 g) = N) by (rewrite sph0_length; congruence).
  assert (Q : sph0 g = vec N f0) by (unfold sph0; rewrite El, Ep; reflexivity).
  destruct (ladder_linear b h cl Rmin Rmax nx g Hg Hsh HL H8 H2 Hln) as [R1 R2].
  destruct (sph_ops_linear b h cl Rmin Rmax nx g Hg Hsh Hln) as (S1 & _).
  assert (TOT : forall v, length v = n -> exists rv lv d, raise b (g_sphere g) (shell g v ix) (vec N c0) = Ok rv /\ lower b (g_sphere g) (shell g v ix) (vec N c0) = Ok lv /\
     partial_phi b (g_sphere g) (shell g v ix) (sph0 g) = Ok d /\ length rv = N /\ length lv = N /\ length d = N).
  { intros v Lv. destruct (sphereX_ok b h (g_sphere g) Hsh Hs (shell g v ix) (sph0 g) HL (LS v Lv) L0) as (rv & lv & d & o1 & A1 & A2 & A3 & _ & _ & A6 & A7 & A8 & _).
    exists rv, lv, d. rewrite Q. auto 10. }
  assert (LR : forall a v c w, length v = n -> length w = n -> rs (lincomb a v c w) = (a * fst (rs v) + c * fst (rs w), a * snd (rs v) + c * snd (rs w))).
  { intros a v c w Lv Lw. destruct (TOT v Lv) as (x1 & x2 & x3 & E1 & E2 & E3 & M1 & M2 & M3). destruct (TOT w Lw) as (y1 & y2 & y3 & F1 & F2 & F3 & K1 & K2 & K3).
    unfold rs. rewrite (shell_lin b h cl Rmin Rmax nx g Hg H8 H2) by auto. rewrite (R1 a _ c _ x1 y1) by auto. rewrite E1, F1. now rewrite (nth_clincomb _ _ _ _ _ N) by auto. }
  assert (LW : forall a v c w, length v = n -> length w = n -> lw (lincomb a v c w) = (a * fst (lw v) + c * fst (lw w), a * snd (lw v) + c * snd (lw w))).
  { intros a v c w Lv Lw. destruct (TOT v Lv) as (x1 & x2 & x3 & E1 & E2 & E3 & M1 & M2 & M3). destruct (TOT w Lw) as (y1 & y2 & y3 & F1 & F2 & F3 & K1 & K2 & K3).
    unfold lw. rewrite (shell_lin b h cl Rmin Rmax nx g Hg H8 H2) by auto. rewrite (R2 a _ c _ x2 y2) by auto. rewrite E2, F2. now rewrite (nth_clincomb _ _ _ _ _ N) by auto. }
  assert (LD : forall a v c w, length v = n -> length w = n -> dp (lincomb a v c w) = a * dp v + c * dp w).
  { intros a v c w Lv Lw. destruct (TOT v Lv) as (x1 & x2 & x3 & E1 & E2 & E3 & M1 & M2 & M3). destruct (TOT w Lw) as (y1 & y2 & y3 & F1 & F2 & F3 & K1 & K2 & K3).
    unfold dp. rewrite (shell_lin b h cl Rmin Rmax nx g Hg H8 H2) by auto. rewrite (S1 a _ c _ x3 y3) by auto. rewrite E3, F3. now rewrite (nth_lincomb _ _ _ _ _ N) by auto. }
  exists (fun v => fst (rs v)), (fun v => fst (lw v)), (fun v => snd (rs v)), (fun v => snd (lw v)), dp.
  split; [intros a v c w Lv Lw; now rewrite LR|]. split; [intros a v c w Lv Lw; now rewrite LW|]. split; [intros a v c w Lv Lw; now rewrite LR|].
  split; [intros a v c w Lv Lw; now rewrite LW|]. split; [exact LD|].
  intros v Lv. destruct (C23_angular b h cl Rmin Rmax nx g Hg v (zero3 g) Hsh HL Lv Lz) as (x1 & x2 & x3 & E1 & E2 & E3 & L1 & L2 & L3 & A).
  unfold sX_of. rewrite E3. destruct (A ix Hix) as (_ & _ & A2).
  destruct (sphereX_ok b h (g_sphere g) Hsh Hs (shell g v ix) (sph0 g) HL (LS v Lv) L0) as (rv & lv & d & o1 & B1 & B2 & B3 & B4 & B5 & B6 & B7 & B8 & B9).
  rewrite A2 in B4. injection B4 as B4. rewrite <- NE. rewrite <- (PGridOp.nth_shell g x3 ix k 0) by congruence. rewrite B4.
  specialize (B9 k Hk). change (@f0 R _) with 0 in *. change (@c0 R _) with (0, 0) in *. rewrite B9.
  unfold rs, lw, dp. rewrite B1, B2. rewrite Q. change (@f0 R _) with 0 in *. rewrite B3. unfold cmul. cbn [fst snd]. R_ops. change (cplx R) with (R * R)%type. ring.
Qed.

(** every component of the right-hand side has jets at regular states *)
Lemma rhs_jets e (y : state R) : eom_ok g e -> szd n y -> (forall i, (i < n)%nat -> regular (theory_e e) (nth i (fst y) 0)) ->
  forall i, inhabited (jet n y (fun u => cmp n (rhs_of g e u) i)).
Proof.
  intros Oe Sy Hreg i.
  assert (SF : forall u, szd n u -> szd n (rhs_of g e u)) by (intros u Su; now apply (rhs_sized b h cl Rmin Rmax nx g Hg Hsh HL H8 H2)).
  destruct (Nat.lt_ge_cases i n) as [H|H].
  { constructor. apply (jet_ext n y (fun u => cmp n u (n + i))); auto; [|apply jet_cmp]. intros u Su. rewrite cmp_snd, cmp_fst by auto. reflexivity. }
  destruct (Nat.lt_ge_cases i (n + n)) as [H'|H'].
  2:{ constructor. apply (jet_ext n y (fun u => 0)); auto; [|apply jet_const]. intros u Su. symmetry. apply cmp_out; auto. }
  replace i with (n + (i - n))%nat by lia. set (q := (i - n)%nat). assert (Hq : (q < n)%nat) by (unfold q; lia). clearbody q. clear i H H'.
  destruct (Hreg q Hq) as [K1 K2].
  destruct OL as (D1 & D2 & D3 & D4 & _).
  assert (OKf : forall v, length v = n -> length (dr_of g v) = n /\ length (drr_of g v) = n /\ length (dphi_of g v) = n /\ length (lap_of g v) = n /\ length (sX_of g v) = n).
  { intros v Lv. destruct (ops_ok b h cl Rmin Rmax nx g Hg Hsh HL H8 H2 v v Lv Lv) as (_ & _ & _ & _ & _ & P1 & P2 & P3 & P4 & P5). auto 10. }
  destruct (sX_forms q Hq) as (L1 & L2 & L3 & L4 & L5 & X1 & X2 & X3 & X4 & X5 & XE).
  constructor.
  set (c := nth q (e_coef e) coef0).
  apply (jet_ext n y (fun u => p_rhs e c (nth q (fst u) 0) (nth q (snd u) 0) (nth q (dr_of g (fst u)) 0) (nth q (dr_of g (snd u)) 0) (nth q (drr_of g (fst u)) 0)
     (nth q (dphi_of g (fst u)) 0) (nth q (dr_of g (dphi_of g (fst u))) 0) (nth q (lap_of g (fst u)) 0) (- (L1 (fst u) * L2 (fst u) - L3 (fst u) * L4 (fst u)) + L5 (fst u) * L5 (fst u)))); auto.
  { intros u [A B]. rewrite cmp_snd. cbn [rhs_of snd]. rewrite <- XE by auto. symmetry. now apply (prhs_at b h cl Rmin Rmax nx g Hg Hsh HL H8 H2). }
  set (F := fun u : state R => nth q (fst u) 0). set (P := fun u : state R => nth q (snd u) 0).
  assert (JF : jet n y F). { apply (jet_ext n y (fun u => cmp n u q)); auto; [|apply jet_cmp]. intros u Su. now apply cmp_fst. }
  assert (JP : jet n y P). { apply (jet_ext n y (fun u => cmp n u (n + q))); auto; [|apply jet_cmp]. intros u Su. apply cmp_snd. }
  assert (Jdrf : jet n y (fun u => nth q (dr_of g (fst u)) 0)) by (apply (jet_linf n y (fun v => nth q (dr_of g v) 0)); auto; apply op_linfun; auto; intros; now apply OKf).
  assert (Jdrp : jet n y (fun u => nth q (dr_of g (snd u)) 0)) by (apply (jet_lins n y (fun v => nth q (dr_of g v) 0)); auto; apply op_linfun; auto; intros; now apply OKf).
  assert (Jdrr : jet n y (fun u => nth q (drr_of g (fst u)) 0)) by (apply (jet_linf n y (fun v => nth q (drr_of g v) 0)); auto; apply op_linfun; auto; intros; now apply OKf).
  assert (Jdp : jet n y (fun u => nth q (dphi_of g (fst u)) 0)) by (apply (jet_linf n y (fun v => nth q (dphi_of g v) 0)); auto; apply op_linfun; auto; intros; now apply OKf).
  assert (Jdpr : jet n y (fun u => nth q (dr_of g (dphi_of g (fst u))) 0)).
  { apply (jet_linf n y (fun v => nth q (dr_of g (dphi_of g v)) 0)); auto. apply (op_linfun (fun v => dr_of g (dphi_of g v))); auto.
    - intros a v c' w Lv Lw. rewrite D3 by auto. apply D1; now apply OKf.
    - intros v Lv. now apply OKf, OKf. }
  assert (Jlap : jet n y (fun u => nth q (lap_of g (fst u)) 0)) by (apply (jet_linf n y (fun v => nth q (lap_of g v) 0)); auto; apply op_linfun; auto; intros; now apply OKf).
  assert (JX : jet n y (fun u => - (L1 (fst u) * L2 (fst u) - L3 (fst u) * L4 (fst u)) + L5 (fst u) * L5 (fst u))).
  { apply (jet_ext n y (fun u => ((-1) * (L1 (fst u) * L2 (fst u)) + L3 (fst u) * L4 (fst u)) + L5 (fst u) * L5 (fst u))); auto; [intros; ring|].
    apply jet_add; [apply jet_add; [apply jet_scal|]|]; apply jet_mul; now apply jet_linf. }
  assert (JI : forall w, (w = 0 \/ F y + 1 <> 0) -> jet n y (fun u => w * / (F u + 1))).
  { intros w Hw. destruct (Req_EM_T w 0) as [->|Nw]; [apply (jet_ext n y (fun _ => 0)); auto; [intros; ring|apply jet_const]|].
    apply jet_scal. apply (jet_inv n y (fun u => F u + 1)); [destruct Hw as [E|E]; [contradiction|exact E]|]. apply jet_add; auto. apply jet_const. }
  assert (Jk : jet n y (fun u => kfun (theory_e e) (F u))).
  { apply (jet_ext n y (fun u => ((e_k0 e + e_km1 e * / (F u + 1)) + e_k1 e * F u) + e_k2 e / 2 * (F u * F u))); auto.
    - intros u Su. unfold kfun, theory_e. cbn [t_km1 t_k0 t_k1 t_k2]. unfold Rdiv. ring.
    - repeat apply jet_add; [apply jet_const|apply JI, K1|now apply jet_scal|apply jet_scal; now apply jet_mul]. }
  assert (Jinv : jet n y (fun u => inverse_k e (F u))).
  { apply (jet_ext n y (fun u => / kfun (theory_e e) (F u))); auto; [intros; now rewrite inverse_k_value|]. apply jet_inv; auto. }
  assert (Jkp : jet n y (fun u => kprime e (F u))).
  { apply (jet_ext n y (fun u => (((-1) * (e_km1 e * / (F u + 1)) * (1 * / (F u + 1) )) + e_k1 e) + e_k2 e * F u)); auto.
    - intros u Su. unfold kprime. R_ops. cbn [pow]. unfold Rdiv. rewrite Rmult_1_r, Rinv_mult. ring.
    - destruct (Req_EM_T (e_km1 e) 0) as [E|E].
      + apply (jet_ext n y (fun u => e_k1 e + e_k2 e * F u)); auto; [intros; rewrite E; ring|]. apply jet_add; [apply jet_const|now apply jet_scal].
      + apply jet_add; [apply jet_add; [|apply jet_const]|now apply jet_scal]. apply jet_mul; [apply jet_scal|]; apply JI; auto. right. destruct K1; [contradiction|auto]. }
  assert (Jv : jet n y (fun u => vprime e (F u))).
  { apply (jet_ext n y (fun u => inverse_k e (F u) * ((e_v2 e * F u + e_v3 e / 2 * (F u * F u)) + e_v4 e / 6 * (F u * (F u * F u))))); auto.
    - intros u Su. unfold vprime. R_ops. cbn [pow]. ring.
    - apply jet_mul; auto. repeat apply jet_add; apply jet_scal; auto; repeat apply jet_mul; auto. }
  unfold p_rhs. R_ops. set (hf := 5 * powerRZ 10 (-1)).
  apply (jet_ext n y (fun u => (((((((c_p c * P u + c_dr_f c * nth q (dr_of g (fst u)) 0) + c_dr_p c * nth q (dr_of g (snd u)) 0) + c_dr_dr_f c * nth q (drr_of g (fst u)) 0)
     + c_dphi_dr_f c * nth q (dr_of g (dphi_of g (fst u))) 0) + c_lap_f c * nth q (lap_of g (fst u)) 0)
     + hf * ((kprime e (F u) * inverse_k e (F u)) *
        ((((c_p_p c * (P u * P u) + c_p_dr_f c * (P u * nth q (dr_of g (fst u)) 0)) + c_dr_f_dr_f c * (nth q (dr_of g (fst u)) 0 * nth q (dr_of g (fst u)) 0))
        + c_dr_f_dphi_f c * (nth q (dr_of g (fst u)) 0 * nth q (dphi_of g (fst u)) 0)) + c_sphereX_f c * (- (L1 (fst u) * L2 (fst u) - L3 (fst u) * L4 (fst u)) + L5 (fst u) * L5 (fst u)))))
     + (-1) * (c_pre c * vprime e (F u))))); auto.
  - intros u Su. unfold F, P. cbn [pow]. ring.
  - repeat first [assumption|apply jet_scal|apply jet_mul|apply jet_add].
Qed.

(** the step length enters nowhere else *)
Lemma rhs_dt e dt u : eom_ok g e -> szd n u -> rhs_of g (with_dt e dt) u = rhs_of g e u.
Proof.
  intros Oe Su. pose proof Su as [A B]. assert (Oe' : eom_ok g (with_dt e dt)) by exact Oe.
  pose proof (rhs_sized b h cl Rmin Rmax nx g Hg Hsh HL H8 H2 e u Oe Su) as [_ S1].
  pose proof (rhs_sized b h cl Rmin Rmax nx g Hg Hsh HL H8 H2 _ u Oe' Su) as [_ S2].
  unfold rhs_of in *. cbn [fst snd] in *. f_equal. apply (nth_ext _ _ 0 0); [congruence|]. rewrite S2. intros i Hi. rewrite !(prhs_at b h cl Rmin Rmax nx g Hg Hsh HL H8 H2) by auto. reflexivity.
Qed.

(** ** C76.  Let z be an exact solution of the semi-discrete equations (u' = the slopes the code computes) that starts
    from the filtered current level.  Then one call of time_step with step length dt leaves in np1 an array that differs
    from z(dt) by at most C dt^5 at every grid point, for all small dt: the scheme is fourth-order accurate in time. *)
Theorem C76_local_error_is_fifth_order e (f p : field R) rhs uf up z T :
  eom_ok g e -> field_ok g f -> field_ok g p -> computes_rhs g e rhs ->
  grid_filter g (fl_n f) = Ok uf -> grid_filter g (fl_n p) = Ok up ->
  (forall i, (i < n)%nat -> regular (theory_e e) (nth i uf 0)) ->
  0 < T -> solves n rhs z T -> z 0 = (uf, up) ->
  exists C h0, 0 < h0 /\ forall dt, 0 <= dt <= h0 ->
    exists f' p' e', time_step g (with_dt e dt) f p = Ok (f', p', e') /\
      forall i, (i < n)%nat ->
        Rabs (nth i (fl_np1 f') 0 - nth i (fst (z dt)) 0) <= C * dt ^ 5 /\
        Rabs (nth i (fl_np1 p') 0 - nth i (snd (z dt)) 0) <= C * dt ^ 5.
Proof.
  intros Oe Of Op Hr Ef Ep Hreg HT [Sz Dz] z0.
  assert (ER : forall u, szd n u -> rhs u = rhs_of g e u).
  { intros [u w] [Lu Lw]. cbn [fst snd] in *. pose proof Oe as (En & Lc & Os). destruct (Hr u w u u (e_scr e) Lu Lw Lu Lu Os) as (s' & Es).
    destruct (set_k_ok b h cl Rmin Rmax nx g Hg Hsh HL H8 H2 e (e_scr e) u w u u) as [E' Lq]; auto.
    rewrite E' in Es. assert (P1 : fst (rhs (u, w)) = w) by congruence. assert (P2 : snd (rhs (u, w)) = prhs_of g e u w) by congruence.
    unfold rhs_of. cbn [fst snd]. rewrite (surjective_pairing (rhs (u, w))). congruence. }
  pose proof Of as (_ & Ln & _). pose proof Op as (_ & Lp & _).
  destruct (filter_total b h cl Rmin Rmax nx g Hg Hsh H8 H2 _ Ln) as [Ef' Lf']. destruct (filter_total b h cl Rmin Rmax nx g Hg Hsh H8 H2 _ Lp) as [Ep' Lp'].
  rewrite Ef in Ef'. injection Ef' as Ef'. rewrite Ep in Ep'. injection Ep' as Ep'.
  set (y := (uf, up) : state R). assert (Sy : szd n y) by (split; cbn [fst snd y]; congruence).
  assert (SF : forall u, szd n u -> szd n (rhs_of g e u)) by (intros u Su; now apply (rhs_sized b h cl Rmin Rmax nx g Hg Hsh HL H8 H2)).
  assert (J : inhabited (forall i, jet n y (fun u => cmp n (rhs_of g e u) i))).
  { assert (X : forall m, inhabited (forall i, (i < m)%nat -> jet n y (fun u => cmp n (rhs_of g e u) i))).
    { induction m as [|m [IH]]; [constructor; intros i Hi; exfalso; lia|].
      destruct (rhs_jets e y Oe Sy Hreg m) as [Jm]. constructor. intros i Hi. destruct (Nat.eq_dec i m) as [->|]; [exact Jm|apply IH; lia]. }
    destruct (X (n + n)%nat) as [J]. constructor. intros i. destruct (lt_dec i (n + n)) as [Hi|Hi]; [now apply J|].
    apply (jet_ext n y (fun _ => 0)); auto; [|apply jet_const]. intros u Su. symmetry. apply cmp_out; auto. lia. }
  destruct J as [J].
  destruct (rk4_local_error n y (rhs_of g e) Sy SF J z T HT Sz z0) as (C & h0 & HC & Hh & H).
  { intros t i Ht Hi. pose proof (Sz t) as St. rewrite <- ER by auto. destruct (Nat.lt_ge_cases i n) as [Hn|Hn].
    - rewrite cmp_fst by auto. apply (is_derive_ext (fun t => nth i (fst (z t)) 0)); [intros; now rewrite cmp_fst by auto|]. now apply Dz.
    - replace i with (n + (i - n))%nat by lia. rewrite cmp_snd. apply (is_derive_ext (fun t => nth (i - n) (snd (z t)) 0)); [intros; now rewrite cmp_snd|]. apply Dz; auto. lia. }
  exists C, h0. split; auto. intros dt Hdt.
  assert (Oe' : eom_ok g (with_dt e dt)) by exact Oe.
  destruct (time_step_closed b h cl Rmin Rmax nx g Hg Hsh HL H8 H2 (with_dt e dt) f p Oe' Of Op) as (f' & p' & s & E & _ & _ & _ & _ & _ & _ & _ & V).
  exists f', p', (with_scr (with_dt e dt) s). split; auto. cbn [with_dt e_dt] in V. rewrite <- Ef', <- Ep' in V. fold y in V.
  assert (Q : rk4 (rhs_of g (with_dt e dt)) dt (uf, up) = rk4 (rhs_of g e) dt (uf, up)).
  { apply (rk4_ext_len _ _ dt uf up n); [apply Sy|apply Sy|]. intros u A B. rewrite rhs_dt; [|auto|split; auto]. split; auto. apply SF. split; auto. }
  unfold y in V. rewrite Q in V. fold y in V.
  - intros i Hi. pose proof (H dt i Hdt ltac:(lia)) as B1. pose proof (H dt (n + i)%nat Hdt ltac:(lia)) as B2.
    rewrite <- V in B1, B2. rewrite !cmp_fst in B1 by auto. rewrite !cmp_snd in B2. auto.
Qed.

(** ** such solutions exist: for constant k and quadratic V, from every initial state (and for all times) *)
Lemma psum_split m q a : psum (m + q) a 1 = psum m a 1 + psum q (fun j => a (m + j)%nat) 1.
Proof. induction q as [|q IH]; [rewrite Nat.add_0_r; cbn; ring|]. rewrite Nat.add_succ_r. cbn [psum]. rewrite IH, !pow1. ring. Qed.
Definition matrix_of e (M : nat -> nat -> R) : Prop := forall u i, szd n u -> (i < n + n)%nat -> cmp n (rhs_of g e u) i = psum (n + n) (fun j => M i j * cmp n u j) 1.
Lemma rhs_matrix e : eom_ok g e -> free_eqs e -> exists M, matrix_of e M.
Proof.
  intros Oe Fe.
  assert (SF : forall v, szd n v -> szd n (rhs_of g e v)) by (intros v Sv; now apply (rhs_sized b h cl Rmin Rmax nx g Hg Hsh HL H8 H2)).
  set (o := repeat 0 n). assert (Lo : length o = n) by apply repeat_length. assert (No : forall i, nth i o 0 = 0) by (intros i; apply nth_repeat).
  assert (CL : forall a v c w i, szd n v -> szd n w -> cmp n (rhs_of g e (lin2 a v c w)) i = a * cmp n (rhs_of g e v) i + c * cmp n (rhs_of g e w) i).
  { intros a v c w i Sv Sw. rewrite (rhs_lin b h cl Rmin Rmax nx g Hg Hsh HL H8 H2 Hln e a v c w Oe Fe Sv Sw). pose proof (SF v Sv) as [A1 A2]. pose proof (SF w Sw) as [B1 B2].
    assert (NL : forall x y i, length x = n -> length y = n -> nth i (lincomb a x c y) 0 = a * nth i x 0 + c * nth i y 0).
    { intros x y j Lx Ly. destruct (Nat.lt_ge_cases j n); [now apply (nth_lincomb _ _ _ _ _ n)|]. rewrite !nth_overflow; try lia; [ring|]. rewrite (lincomb_length _ _ _ _ n); auto. }
    unfold cmp, lin2. cbn [fst snd]. destruct (i <? n)%nat; now apply NL. }
  assert (SP : forall v, length v = n -> szd n (v, o) /\ szd n (o, v)) by (intros v Lv; split; split; cbn; auto).
  assert (LF : forall i, linfun n (fun v => cmp n (rhs_of g e (v, o)) i)).
  { intros i a v c w Lv Lw. rewrite <- CL by (apply SP; assumption). unfold lin2. cbn [fst snd]. do 3 f_equal. apply (lincomb_ext _ _ _ _ _ n); auto. intros q Hq. rewrite No. ring. }
  assert (LS : forall i, linfun n (fun v => cmp n (rhs_of g e (o, v)) i)).
  { intros i a v c w Lv Lw. rewrite <- CL by (apply SP; assumption). unfold lin2. cbn [fst snd]. do 3 f_equal. apply (lincomb_ext _ _ _ _ _ n); auto. intros q Hq. rewrite No. ring. }
  exists (fun i j => if (j <? n)%nat then cmp n (rhs_of g e (unitv n j, o)) i else cmp n (rhs_of g e (o, unitv n (j - n))) i).
  intros v i Sv Hi. pose proof Sv as [Lv Lw].
    assert (E : v = lin2 1 (fst v, o) 1 (o, snd v)).
    { destruct v as [v w]. unfold lin2. cbn [fst snd] in *. f_equal; apply (lincomb_ext _ _ _ _ _ n); auto; intros q Hq; rewrite No; ring. }
    rewrite E at 1. rewrite CL by (apply SP; assumption). rewrite psum_split.
    rewrite (linfun_sum n (fun x => cmp n (rhs_of g e (x, o)) i) (fst v)) by auto.
    rewrite (linfun_sum n (fun x => cmp n (rhs_of g e (o, x)) i) (snd v)) by auto.
    rewrite !Rmult_1_l. f_equal; apply psum_ext; intros j Hj.
    + destruct (Nat.ltb_spec j n); [|lia]. rewrite (cmp_fst n v j) by auto. reflexivity.
    + destruct (Nat.ltb_spec (n + j) n); [lia|]. rewrite (cmp_snd n v j). now replace (n + j - n)%nat with j by lia.
Qed.
Theorem C76_free_solutions_exist e rhs (u : state R) : eom_ok g e -> free_eqs e -> computes_rhs g e rhs ->
  length (fst u) = n -> length (snd u) = n -> exists z, solves n rhs z 1 /\ z 0 = u.
Proof.
  intros Oe Fe Hr Lu1 Lu2. assert (Su : szd n u) by (split; auto).
  assert (ER : forall v, szd n v -> rhs v = rhs_of g e v).
  { intros [v w] [Lv Lw]. cbn [fst snd] in *. pose proof Oe as (En & Lc & Os). destruct (Hr v w v v (e_scr e) Lv Lw Lv Lv Os) as (s' & Es).
    destruct (set_k_ok b h cl Rmin Rmax nx g Hg Hsh HL H8 H2 e (e_scr e) v w v v) as [E' Lq]; auto.
    rewrite E' in Es. assert (P1 : fst (rhs (v, w)) = w) by congruence. assert (P2 : snd (rhs (v, w)) = prhs_of g e v w) by congruence.
    unfold rhs_of. cbn [fst snd]. rewrite (surjective_pairing (rhs (v, w))). congruence. }
  assert (SF : forall v, szd n v -> szd n (rhs_of g e v)) by (intros v Sv; now apply (rhs_sized b h cl Rmin Rmax nx g Hg Hsh HL H8 H2)).
  destruct (rhs_matrix e Oe Fe) as (M & HM). destruct (linear_solution n (rhs_of g e) M SF HM u Su) as (z & [Sz Dz] & z0 & _).
  exists z. split; auto. split; auto. intros t i Ht Hi. rewrite ER by apply Sz. auto.
Qed.
End G.
