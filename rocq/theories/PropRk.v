(** * Properties C44 - C47: the time step. *)
From Coq Require Import Reals Lra.
From Coquelicot Require Import Coquelicot.
From Verif Require Import Base BaseLemmas ForList Arith MFd MCheb MSphere MGrid MParams MField MEom
  Spec SphereSpec GridSpec RkSpec PSum PGrid PTables PMake PSphere PSphere2 PSphereR PGridOp PropTables PropGridOp PropRad PropGridFilter PConc PEom PEomOk PRk PEomR ToyRun.
Local Open Scope nat_scope.

Section Rk.
Context {F : Type} {AF : Arith F}.
Variables (b : build) (h : sht F) (cl0 Rmin0 Rmax0 : F) (nx : nat) (g : grid F).
Hypothesis Hg : grid_of b h cl0 Rmin0 Rmax0 nx g.
Hypothesis Hsh : shapes h.
Hypothesis HL : (Z.of_nat (s_lmax h) < 2 ^ 31)%Z.
Hypothesis H8 : use_cheb b = false -> 8 <= nx.
Hypothesis H2 : use_cheb b = true -> 2 <= nx.
Local Notation n := (g_n3 g).

(** [rhs] is what set_k computes from the two input arrays, whatever is in the output buffers and in
    the scratch arrays of the object. *)
Definition computes_rhs (e : eom F) (rhs : state F -> state F) : Prop :=
  forall f p fk pk s, length f = n -> length p = n -> length fk = n -> length pk = n -> scr_ok n s ->
  exists s', set_k g (with_scr e s) f p fk pk = Ok (fst (rhs (f, p)), snd (rhs (f, p)), with_scr e s').

(** such a function exists: the slopes depend on f and p only *)
Theorem C44_rhs_exists (e : eom F) : eom_ok g e -> exists rhs, computes_rhs e rhs /\ forall u, fst (rhs u) = snd u.
Proof.
  intros Oe. exists (rhs_of g e). split; [|reflexivity]. intros f p fk pk s Lf Lp Lfk Lpk Os. exists (scr_of g f p).
  cbn [rhs_of fst snd]. now apply (set_k_ok b h cl0 Rmin0 Rmax0 nx).
Qed.

(** time_step filters the current level and puts the classical RK4 update of the filtered state in np1. *)
Theorem C44_time_step_is_rk4 (e : eom F) (f p : field F) rhs :
  eom_ok g e -> field_ok g f -> field_ok g p -> computes_rhs e rhs ->
  exists f' p' e' uf up, grid_filter g (fl_n f) = Ok uf /\ grid_filter g (fl_n p) = Ok up /\
    time_step g e f p = Ok (f', p', e') /\ fl_n f' = uf /\ fl_n p' = up /\
    (fl_np1 f', fl_np1 p') = rk4 rhs (e_dt e) (uf, up).
Proof.
  intros Oe Of Op Hr.
  destruct (time_step_closed b h cl0 Rmin0 Rmax0 nx g Hg Hsh HL H8 H2 e f p Oe Of Op) as (f' & p' & s & E & _ & _ & _ & N1 & N2 & _ & _ & V).
  pose proof Of as (A0 & A1 & A2 & A3 & A4). pose proof Op as (B0 & B1 & B2 & B3 & B4).
  destruct (filter_total b h cl0 Rmin0 Rmax0 nx g Hg Hsh H8 H2 _ A1) as [Ef Lf]. destruct (filter_total b h cl0 Rmin0 Rmax0 nx g Hg Hsh H8 H2 _ B1) as [Ep Lp].
  exists f', p', (with_scr e s), (filt_of g (fl_n f)), (filt_of g (fl_n p)). do 5 (split; auto). rewrite V.
  assert (X : forall u, length (fst u) = n -> length (snd u) = n -> rhs u = rhs_of g e u /\ length (fst (rhs u)) = n /\ length (snd (rhs u)) = n).
  { intros [u w] Lu Lw. cbn [fst snd] in *. destruct Oe as (En & Lc & Os).
    destruct (Hr u w u u (e_scr e) Lu Lw Lu Lu Os) as (s' & Es).
    destruct (set_k_ok b h cl0 Rmin0 Rmax0 nx g Hg Hsh HL H8 H2 e (e_scr e) u w u u) as [E' Lq]; auto; [unfold eom_ok; auto|].
    rewrite E' in Es. assert (P1 : fst (rhs (u, w)) = w) by congruence. assert (P2 : snd (rhs (u, w)) = prhs_of g e u w) by congruence.
    unfold rhs_of. cbn [fst snd]. rewrite P1, P2. split; auto. destruct (rhs (u, w)). cbn in *. congruence. }
  assert (LX : forall c k u, length (fst k) = n -> length (snd k) = n -> length (fst u) = n -> length (snd u) = n ->
     length (fst (axpy2 c k u)) = n /\ length (snd (axpy2 c k u)) = n).
  { intros c k u ? ? ? ?. unfold axpy2. cbn. split; now apply axpy_length. }
  unfold rk4. set (u := (filt_of g (fl_n f), filt_of g (fl_n p))).
  destruct (X u Lf Lp) as (E1 & L1 & L1'). rewrite <- E1.
  destruct (LX (fdec 5 (-1) * e_dt e)%f (rhs u) u L1 L1' Lf Lp) as (M1 & M1'). destruct (X _ M1 M1') as (E2 & L2 & L2'). rewrite <- E2.
  destruct (LX (fdec 5 (-1) * e_dt e)%f _ u L2 L2' Lf Lp) as (M2 & M2'). destruct (X _ M2 M2') as (E3 & L3 & L3'). rewrite <- E3.
  destruct (LX (e_dt e) _ u L3 L3' Lf Lp) as (M3 & M3'). destruct (X _ M3 M3') as (E4 & L4 & L4'). rewrite <- E4. reflexivity.
Qed.

(** ** C45: nothing but n of the two fields (and the constants of the object) matters; no assertion fails
    and no array is left. *)
Theorem C45_time_step_total (e : eom F) (f p : field F) : eom_ok g e -> field_ok g f -> field_ok g p ->
  exists f' p' e', time_step g e f p = Ok (f', p', e') /\ eom_ok g e' /\ field_ok g f' /\ field_ok g p' /\
    (exists s, e' = with_scr e s) /\ fl_name f' = fl_name f /\ fl_name p' = fl_name p.
Proof.
  intros Oe Of Op.
  destruct (time_step_closed b h cl0 Rmin0 Rmax0 nx g Hg Hsh HL H8 H2 e f p Oe Of Op) as (f' & p' & s & E & Os & Of' & Op' & _ & _ & N1 & N2 & _).
  exists f', p', (with_scr e s). split; auto. split; [destruct Oe as (? & ? & _); unfold eom_ok; cbn; auto|]. eauto 10.
Qed.
Theorem C45_depends_on_current_level_only (e e2 : eom F) (f p f2 p2 : field F) f' p' e' f2' p2' e2' :
  eom_ok g e -> eom_ok g e2 -> (exists s, e2 = with_scr e s) ->
  field_ok g f -> field_ok g p -> field_ok g f2 -> field_ok g p2 ->
  fl_n f = fl_n f2 -> fl_n p = fl_n p2 ->
  time_step g e f p = Ok (f', p', e') -> time_step g e2 f2 p2 = Ok (f2', p2', e2') ->
  fl_n f' = fl_n f2' /\ fl_n p' = fl_n p2' /\ fl_np1 f' = fl_np1 f2' /\ fl_np1 p' = fl_np1 p2'.
Proof.
  intros Oe Oe2 (s & ->) Of Op Of2 Op2 Ef Ep E1 E2.
  destruct (time_step_closed b h cl0 Rmin0 Rmax0 nx g Hg Hsh HL H8 H2 e f p Oe Of Op) as (a & c & s1 & T1 & _ & _ & _ & N1 & N2 & _ & _ & V).
  destruct (time_step_closed b h cl0 Rmin0 Rmax0 nx g Hg Hsh HL H8 H2 (with_scr e s) f2 p2 Oe2 Of2 Op2) as (a2 & c2 & s2 & T2 & _ & _ & _ & N1' & N2' & _ & _ & V').
  rewrite E1 in T1. injection T1 as -> -> ->. rewrite E2 in T2. injection T2 as -> -> ->.
  rewrite N1, N2, N1', N2', Ef, Ep. split; auto. split; auto.
  assert (R : forall u, length (fst u) = n -> length (snd u) = n -> rhs_of g (with_scr e s) u = rhs_of g e u /\ length (fst (rhs_of g e u)) = n /\ length (snd (rhs_of g e u)) = n).
  { intros [u w] Lu Lw. cbn [fst snd] in *. unfold rhs_of. cbn [fst snd]. destruct Oe as (En & Lc & Os). pose proof Oe2 as (_ & _ & Os2). cbn [with_scr e_scr] in Os2.
    destruct (set_k_ok b h cl0 Rmin0 Rmax0 nx g Hg Hsh HL H8 H2 e s u w u u) as [E' Lq]; auto; [unfold eom_ok; auto|].
    destruct (set_k_ok b h cl0 Rmin0 Rmax0 nx g Hg Hsh HL H8 H2 (with_scr e s) s u w u u) as [E'' _]; auto.
    rewrite with_scr_twice in E''. assert (Q : prhs_of g (with_scr e s) u w = prhs_of g e u w) by congruence. rewrite Q. auto. }
  pose proof Of2 as (_ & A1 & _). pose proof Op2 as (_ & B1 & _).
  destruct (filter_total b h cl0 Rmin0 Rmax0 nx g Hg Hsh H8 H2 _ A1) as [_ Lf]. destruct (filter_total b h cl0 Rmin0 Rmax0 nx g Hg Hsh H8 H2 _ B1) as [_ Lp].
  assert (LX : forall c k u, length (fst k) = n -> length (snd k) = n -> length (fst u) = n -> length (snd u) = n ->
     length (fst (axpy2 c k u)) = n /\ length (snd (axpy2 c k u)) = n).
  { intros cc k u ? ? ? ?. unfold axpy2. cbn. split; now apply axpy_length. }
  rewrite Ef, Ep in V.
  assert (Q : rk4 (rhs_of g (with_scr e s)) (e_dt e) (filt_of g (fl_n f2), filt_of g (fl_n p2)) = rk4 (rhs_of g e) (e_dt e) (filt_of g (fl_n f2), filt_of g (fl_n p2))).
  { unfold rk4. set (u := (filt_of g (fl_n f2), filt_of g (fl_n p2))).
    destruct (R u Lf Lp) as (X1 & L1 & L1'). rewrite X1.
    destruct (LX (fdec 5 (-1) * e_dt e)%f (rhs_of g e u) u L1 L1' Lf Lp) as (M1 & M1'). destruct (R _ M1 M1') as (X2 & L2 & L2'). rewrite X2.
    destruct (LX (fdec 5 (-1) * e_dt e)%f _ u L2 L2' Lf Lp) as (M2 & M2'). destruct (R _ M2 M2') as (X3 & L3 & L3'). rewrite X3.
    destruct (LX (e_dt e) _ u L3 L3' Lf Lp) as (M3 & M3'). destruct (R _ M3 M3') as (X4 & L4 & L4'). rewrite X4. reflexivity. }
  cbn [with_scr e_dt] in V'. rewrite Q in V'. rewrite <- V' in V. injection V as -> ->. auto.
Qed.
End Rk.

(** ** C46 *)
Section Level.
Context {F : Type} {AF : Arith F}.
Theorem C46_invalid_level (e : eom F) level (f p : field F) : (level < 1 \/ 5 < level)%Z -> set_level e level f p = Ok (f, p).
Proof.
  intros H. unfold set_level, level1.
  rewrite !(proj2 (Z.eqb_neq level _)) by lia. reflexivity.
Qed.
Theorem C46_shift (f : field F) : length (fl_n f) = fl_size f -> length (fl_np1 f) = fl_size f ->
  shift f = Ok (with_n f (fl_np1 f)).
Proof.
  intros L1 L2. unfold shift. change (for_ 0 (fl_size f) _ (fl_n f)) with (set_each (fl_size f) (fun i => (fl_np1 f).[i]) (fl_n f)).
  rewrite set_each_copy by auto. reflexivity.
Qed.
(** with arrays of any size the cells below size are copied and nothing else changes *)
Theorem C46_shift_cells (f f' : field F) : shift f = Ok f' ->
  (forall i, i < fl_size f -> nth_error (fl_n f') i = nth_error (fl_np1 f) i /\ nth_error (fl_np1 f) i <> None) /\
  (forall i, fl_size f <= i -> nth_error (fl_n f') i = nth_error (fl_n f) i) /\
  fl_l f' = fl_l f /\ fl_np1 f' = fl_np1 f /\ fl_k f' = fl_k f /\ fl_name f' = fl_name f /\ fl_size f' = fl_size f.
Proof.
  unfold shift. intros H. inv_bind H. injection H as <-.
  destruct (set_each_cells (fl_size f) (fun i => (fl_np1 f).[i]) (fl_n f) x E) as (L & A & B). cbn [with_n fl_n fl_l fl_np1 fl_k fl_name fl_size].
  split; [|auto 10]. intros i Hi. destruct (A i Hi) as (y & Ey & ->). apply vget_inv in Ey. rewrite Ey. split; [auto|discriminate].
Qed.
End Level.

(** ** C44 over the reals: the weights, and the order on linear problems *)
Local Open Scope R_scope.
Theorem C44_weights (rhs : state R -> state R) dt u i f0' k1 k2 k3 k4 :
  let K1 := rhs u in let K2 := rhs (axpy2 (dt / 2) K1 u) in let K3 := rhs (axpy2 (dt / 2) K2 u) in let K4 := rhs (axpy2 dt K3 u) in
  nth_error (fst u) i = Some f0' -> nth_error (fst K1) i = Some k1 -> nth_error (fst K2) i = Some k2 -> nth_error (fst K3) i = Some k3 -> nth_error (fst K4) i = Some k4 ->
  nth_error (fst (rk4 rhs dt u)) i = Some (f0' + dt / 6 * (k1 + 2 * k2 + 2 * k3 + k4)).
Proof.
  intros K1 K2 K3 K4 Hu H1 H2 H3 H4. unfold rk4. R_ops. rewrite half_eq.
  replace (1 / 2 * dt) with (dt / 2) by field. fold K1. fold K2. fold K3. fold K4. unfold axpy2. cbn [fst].
  rewrite (axpy_nth _ _ _ i (f0' + dt / 6 * k1 + dt / 3 * k2 + dt / 3 * k3) k4); auto.
  - R_ops. f_equal. field.
  - rewrite (axpy_nth _ _ _ i (f0' + dt / 6 * k1 + dt / 3 * k2) k3); auto.
    rewrite (axpy_nth _ _ _ i (f0' + dt / 6 * k1) k2); auto. rewrite (axpy_nth _ _ _ i f0' k1); auto.
Qed.
(** on psi' = lambda psi one step multiplies by the degree-4 Taylor polynomial of exp(lambda dt) *)
Theorem C44_order_on_linear_problems lam dt f p : length f = length p ->
  rk4 (fun u => (map (Rmult lam) (fst u), map (Rmult lam) (snd u))) dt (f, p) =
  (map (Rmult (1 + lam * dt + (lam * dt) ^ 2 / 2 + (lam * dt) ^ 3 / 6 + (lam * dt) ^ 4 / 24)) f,
   map (Rmult (1 + lam * dt + (lam * dt) ^ 2 / 2 + (lam * dt) ^ 3 / 6 + (lam * dt) ^ 4 / 24)) p).
Proof.
  intros _. assert (AX : forall c al be (v : list R), axpy c (map (Rmult al) v) (map (Rmult be) v) = map (Rmult (be + c * al)) v).
  { intros c al be v. unfold axpy. induction v as [|x v IH]; [reflexivity|]. cbn [map combine fst snd]. rewrite IH. f_equal. R_ops. ring. }
  assert (MM : forall al be (v : list R), map (Rmult al) (map (Rmult be) v) = map (Rmult (al * be)) v).
  { intros al be v. rewrite map_map. apply map_ext. intros x. ring. }
  assert (M1 : forall v : list R, v = map (Rmult 1) v).
  { intros v. rewrite <- (map_id v) at 1. apply map_ext. intros x. ring. }
  unfold rk4, axpy2. R_ops. rewrite half_eq. cbn [fst snd]. rewrite (M1 f), (M1 p), !MM, !Rmult_1_r. cbn [fst snd].
  repeat (rewrite ?AX, ?MM). f_equal; apply map_ext; intros x; field.
Qed.

(** ** C47: the vacuum.  The transforms map zero data to zero coefficients and back; every transform that
    satisfies the contract of SphereSpec does. *)
Definition zero_sht (h : sht R) : Prop :=
  s_an h (repeat 0 (s_nlat h * s_nphi h)) = repeat (0, 0) (nlm_calc (s_lmax h) (s_mmax h)) /\
  s_sy h (repeat (0, 0) (nlm_calc (s_lmax h) (s_mmax h))) = repeat 0 (s_nlat h * s_nphi h) /\
  s_anc h (repeat (0, 0) (s_nlat h * s_nphi h)) = repeat (0, 0) ((s_lmax h + 1) * (s_lmax h + 1)) /\
  s_syc h (repeat (0, 0) ((s_lmax h + 1) * (s_lmax h + 1))) = repeat (0, 0) (s_nlat h * s_nphi h).

Lemma nth_repeat_any {A} (x : A) m i : nth i (repeat x m) x = x.
Proof. apply nth_repeat. Qed.
Theorem C47_contract_gives_zero_sht b h P : lawful b h P -> clawful b h P -> zero_sht h.
Proof.
  intros Hl Hc.
  assert (S1 : s_sy h (repeat (0, 0) (nlm_calc (s_lmax h) (s_mmax h))) = repeat 0 (s_nlat h * s_nphi h)).
  { apply (sampled_unique b h (real_field P (s_lmax h) (s_mmax h) (fun _ _ => (0, 0)))).
    - apply (lw_syn _ _ _ Hl). split; [apply repeat_length|]. intros. apply nth_repeat_any.
    - split; [apply repeat_length|]. intros. rewrite nth_repeat_any. symmetry. unfold real_field. apply Rsum_zero. intros l _. apply Rsum_zero. intros m _.
      unfold mode. cbn [fst snd]. destruct (Nat.eqb m 0); ring. }
  assert (S2 : s_syc h (repeat (0, 0) ((s_lmax h + 1) * (s_lmax h + 1))) = repeat (0, 0) (s_nlat h * s_nphi h)).
  { apply (csampled_unique b h (cre P (s_lmax h) (fun _ _ => (0, 0))) (cim P (s_lmax h) (fun _ _ => (0, 0)))).
    - apply (cl_syn _ _ _ Hc). split; [apply repeat_length|]. intros. apply nth_repeat_any.
    - split; [apply repeat_length|]. intros. rewrite nth_repeat_any. symmetry. unfold cre, cim, msum. cbn [fst snd].
      f_equal; apply Rsum_zero; intros l _; apply Rsum_zero; intros m _; ring. }
  split; [|split; [exact S1|split; [|exact S2]]].
  - rewrite <- S1. apply (lw_ana _ _ _ Hl _ (fun _ _ => (0, 0))); [|intros l; reflexivity]. split; [apply repeat_length|]. intros. apply nth_repeat_any.
  - rewrite <- S2. apply (cl_ana _ _ _ Hc _ (fun _ _ => (0, 0))). split; [apply repeat_length|]. intros. apply nth_repeat_any.
Qed.

Section Vacuum.
Variables (b : build) (h : sht R) (cl Rmin Rmax : R) (nx : nat) (g : grid R).
Hypothesis Hg : grid_of b h cl Rmin Rmax nx g.
Hypothesis Hsh : shapes h.
Hypothesis Hz : zero_sht h.
Hypothesis HL : (Z.of_nat (s_lmax h) < 2 ^ 31)%Z.
Hypothesis H8 : use_cheb b = false -> (8 <= nx)%nat.
Hypothesis H2 : use_cheb b = true -> (2 <= nx)%nat.
Hypothesis Hne : Rmin <> Rmax.
Hypothesis Hcl : cl <> 0.
Local Notation n := (g_n3 g).
Local Notation N := (s_nlat h * s_nphi h)%nat.
Local Notation nlm := (nlm_calc (s_lmax h) (s_mmax h)).

Lemma all_zero (v : list R) m : length v = m -> (forall i, (i < m)%nat -> nth i v 0 = 0) -> v = repeat 0 m.
Proof. intros L H. apply (nth_ext _ _ 0 0); [now rewrite repeat_length|]. intros i Hi. rewrite nth_repeat_any. apply H. lia. Qed.
Lemma czero (y : list (R * R)) : length y = nlm ->
  (forall l m, (l <= s_lmax h)%nat -> (m <= l)%nat -> (m <= s_mmax h)%nat -> nth (LM (s_lmax h) l m) y (0, 0) = (0, 0)) -> y = repeat (0, 0) nlm.
Proof.
  intros L H. apply (nth_ext _ _ (0, 0) (0, 0)); [now rewrite repeat_length|]. intros i Hi. rewrite nth_repeat_any. rewrite L in Hi.
  destruct (LM_surj (s_lmax h) (s_mmax h) i (sh_mmax h Hsh) Hi) as (l & m & Hl & Hm & Hm' & <-). apply H; auto.
Qed.
Lemma cczero (y : list (R * R)) : length y = ((s_lmax h + 1) * (s_lmax h + 1))%nat ->
  (forall l m, (l <= s_lmax h)%nat -> (- Z.of_nat l <= m <= Z.of_nat l)%Z -> nth (ci l m) y (0, 0) = (0, 0)) -> y = repeat (0, 0) ((s_lmax h + 1) * (s_lmax h + 1)).
Proof.
  intros L H. apply (nth_ext _ _ (0, 0) (0, 0)); [now rewrite repeat_length|]. intros i Hi. rewrite nth_repeat_any. rewrite L in Hi.
  destruct (ci_surj _ i Hi) as (l & m & Hl & Hm & <-). apply H; auto. lia.
Qed.
Lemma cscale_0 c : cscale c (0, 0) = (0, 0) :> cplx R.
Proof. unfold cscale. cbn [fst snd]. R_ops. f_equal; ring. Qed.
Lemma cmulr_0 c : cmulr (0, 0) c = (0, 0) :> cplx R.
Proof. unfold cmulr. cbn [fst snd]. R_ops. f_equal; ring. Qed.
Lemma cmul_0 c : cmul (0, 0) c = (0, 0) :> cplx R.
Proof. destruct c. unfold cmul. cbn [fst snd]. R_ops. f_equal; ring. Qed.

Lemma sph_zero d : length d = N ->
  partial_phi b (g_sphere g) (repeat 0 N) d = Ok (repeat 0 N) /\ laplace_beltrami b (g_sphere g) (repeat 0 N) d = Ok (repeat 0 N) /\
  sp_filter b (g_sphere g) (repeat 0 N) = Ok (repeat 0 N) /\ sphereX b (g_sphere g) (repeat 0 N) d = Ok (repeat 0 N).
Proof.
  intros Ld. destruct Hz as (Z1 & Z2 & Z3 & Z4). destruct (gof_sizes b h cl Rmin Rmax nx g Hg) as (_ & _ & _ & _ & _ & Hs & _).
  pose proof (repeat_length (0 : R) N) as L0.
  assert (D : forall d, length d = N -> partial_phi b (g_sphere g) (repeat 0 N) d = Ok (repeat 0 N)).
  { intros d' Ld'. destruct (dphi_ok b h (g_sphere g) Hsh Hs (repeat 0 N) d' L0 Ld') as (y & E & Ly & _ & H). rewrite E, <- Z2. do 2 f_equal. apply czero; auto.
    intros l m A B C. change (0, 0) with (c0 : cplx R). rewrite H by auto. rewrite Z1. change (c0 : cplx R) with (0, 0). rewrite nth_repeat_any. rewrite cmul_0. now destruct (_ && _). }
  split; auto. split; [|split].
  - destruct (laplace_ok b h (g_sphere g) Hsh Hs (repeat 0 N) d L0 Ld) as (y & E & Ly & _ & H). rewrite E, <- Z2. do 2 f_equal. apply czero; auto.
    intros l m A B C. change (0, 0) with (c0 : cplx R). rewrite H by auto. rewrite Z1. change (c0 : cplx R) with (0, 0). rewrite nth_repeat_any. rewrite cmulr_0. now destruct (_ && _).
  - destruct (filter_ok b h (g_sphere g) Hsh Hs (repeat 0 N) L0) as (y & E & Ly & _ & H). rewrite E, <- Z2. do 2 f_equal. apply czero; auto.
    intros l m A B C. change (0, 0) with (c0 : cplx R). rewrite H by auto. rewrite Z1. change (c0 : cplx R) with (0, 0). rewrite nth_repeat_any. rewrite cmulr_0. now destruct (_ && _).
  - destruct (sphereX_ok b h (g_sphere g) Hsh Hs (repeat 0 N) d HL L0 Ld) as (rv & lv & dp & out & E1 & E2 & E3 & E & Lo & _ & _ & _ & H).
    rewrite E. f_equal. apply all_zero; auto. intros i Hi. change 0 with (f0 : R). rewrite H by auto.
    rewrite D in E3 by apply vec_length. injection E3 as <-.
    assert (EM : embed (repeat 0 N) = repeat (0, 0) N).
    { unfold embed. clear. induction N as [|k IH]; [reflexivity|]. cbn [repeat map]. now rewrite IH. }
    destruct (raise_ok b h (g_sphere g) Hsh Hs (repeat 0 N) (vec N c0) HL L0 (vec_length _ _)) as (y & Er & Ly & _ & R1 & R2). rewrite EM, Z3 in R1, R2.
    rewrite Er in E1. injection E1 as <-.
    assert (Y : y = repeat (0, 0) ((s_lmax h + 1) * (s_lmax h + 1))).
    { apply cczero; auto. intros l m A B. change (0, 0) with (c0 : cplx R). destruct (Nat.eq_dec l (s_lmax h)) as [->|].
      - rewrite R2 by auto. apply nth_repeat_any.
      - rewrite R1 by (auto; lia). destruct (_ =? _)%Z; auto. change (c0 : cplx R) with (0, 0). rewrite nth_repeat_any. apply cscale_0. }
    rewrite Y, Z4. change (c0 : cplx R) with (0, 0). change (f0 : R) with 0. rewrite !nth_repeat_any, cmul_0. cbn [fst]. R_ops. ring.
Qed.
Lemma shell_zero ix : (ix < g_nx g)%nat -> shell g (repeat 0 n) ix = repeat 0 N.
Proof.
  intros Hx. destruct (gof_sizes b h cl Rmin Rmax nx g Hg) as (_ & _ & _ & El & Ep & _).
  assert (E : N = (g_nlat g * g_nphi g)%nat) by congruence. rewrite E.
  assert (Ls : length (shell g (repeat 0 n) ix) = (g_nlat g * g_nphi g)%nat) by (apply shell_length; auto; apply repeat_length).
  apply all_zero; auto.
  intros i Hi. assert (Q : In (nth i (shell g (repeat 0 n) ix) 0) (repeat 0 n)).
  { unfold shell in *. rewrite <- (firstn_skipn (g_nlat g * g_nphi g * ix) (repeat 0 n)) at 2. apply in_or_app. right.
    rewrite <- (firstn_skipn (g_nlat g * g_nphi g) (skipn (g_nlat g * g_nphi g * ix) (repeat 0 n))) at 2. apply in_or_app. left. apply nth_In. lia. }
  now apply repeat_spec in Q.
Qed.
Lemma zero_samples : radial_samples g (fun _ _ => poly []) (repeat 0 n).
Proof. split; [apply repeat_length|]. intros. now rewrite nth_repeat_any. Qed.
Lemma cells_zero (v : list R) : length v = n ->
  (forall ix it ip X, (ix < g_nx g)%nat -> (it < g_nlat g)%nat -> (ip < g_nphi g)%nat -> rad_pt (g_radial g) ix = Ok X -> nth (indx_R_th_ph g ix it ip) v 0 = 0) ->
  v = repeat 0 n.
Proof.
  intros L H. apply all_zero; auto. intros i Hi. destruct (ix_R_th_ph_surj (g_bld g) _ _ _ _ Hi) as (ix & it & ip & Hx & Ht & Hp & <-).
  destruct (gof_sizes b h cl Rmin Rmax nx g Hg) as (_ & En & _).
  destruct (pt_ex b h cl Rmin Rmax nx g Hg ix ltac:(lia)) as (X & EX). now apply (H ix it ip X).
Qed.
Lemma Derive_zero (x : R) : Derive (in_r cl (poly [])) x = 0.
Proof. apply (Derive_const 0). Qed.
Lemma Derive2_zero (x : R) : Derive_n (in_r cl (poly [])) 2 x = 0.
Proof. simpl. rewrite (Derive_ext _ (fun _ => 0)); [apply Derive_const|]. intros. apply (Derive_const 0). Qed.
Local Notation z := (repeat 0 n).

Lemma ops_zero : dr_of g z = z /\ drr_of g z = z /\ dphi_of g z = z /\ lap_of g z = z /\ sX_of g z = z /\ filt_of g z = z.
Proof.
  pose proof (repeat_length (0 : R) n) as L0.
  destruct (gof_sizes b h cl Rmin Rmax nx g Hg) as (_ & En & _ & El & Ep & _).
  destruct (ops_ok b h cl Rmin Rmax nx g Hg Hsh HL H8 H2 z z L0 L0) as (E1 & E2 & E3 & E4 & E5 & L1 & L2 & L3 & L4 & L5).
  destruct (C23_angular b h cl Rmin Rmax nx g Hg z z Hsh HL L0 L0) as (a1 & a2 & a3 & A1 & A2 & A3 & _ & _ & _ & A).
  rewrite E3 in A1. injection A1 as <-. rewrite E4 in A2. injection A2 as <-. rewrite E5 in A3. injection A3 as <-.
  assert (Hx : (1 <= nx)%nat). { destruct (use_cheb b); [specialize (H2 eq_refl)|specialize (H8 eq_refl)]; lia. }
  destruct (C26_filter_is_angular_only b h cl Rmin Rmax nx g Hg z Hsh Hx L0) as (r & Er & Lr & Fr).
  destruct (filter_total b h cl Rmin Rmax nx g Hg Hsh H8 H2 z L0) as [Ef Lf]. rewrite Er in Ef. injection Ef as ->.
  assert (Ls : length (sph0 g) = N) by (rewrite sph0_length; congruence).
  assert (Z : forall ix, (ix < g_nx g)%nat -> shell g z ix = repeat 0 N) by apply shell_zero.
  assert (RAD : dr_of g z = z /\ drr_of g z = z).
  { assert (CB : use_cheb b = true \/ use_cheb b = false) by (destruct (use_cheb b); auto). destruct CB as [Eb|Eb].
    - destruct (C21_cheb_exact b h cl Rmin Rmax nx g Hg Hcl (fun _ _ => []) z z Eb (H2 Eb) Hne) as (d & d2 & D1 & D2 & K1 & K2 & H); auto; [cbn; lia|exact zero_samples|].
      rewrite E1 in D1. injection D1 as <-. rewrite E2 in D2. injection D2 as <-.
      split; apply cells_zero; auto; intros ix it ip X I J K EX; destruct (H ix it ip X I J K EX) as [Ha Hb']; destruct (Req_dec X cl) as [e|ne].
      + now apply Hb'. + destruct (Ha ne) as [-> _]. apply Derive_zero. + now apply Hb'. + destruct (Ha ne) as [_ ->]. apply Derive2_zero.
    - pose proof (H8 Eb) as Hn8.
      destruct (C21_fd_exact_first b h cl Rmin Rmax nx g Hg Hcl (fun _ _ => []) z z Eb ltac:(lia) Hne) as (d & D1 & K1 & H); auto; [cbn; lia|exact zero_samples|].
      destruct (C21_fd_exact_second b h cl Rmin Rmax nx g Hg Hcl (fun _ _ => []) z z Eb ltac:(lia) Hne) as (d2 & D2 & K2 & H'); auto; [cbn; lia|exact zero_samples|].
      rewrite E1 in D1. injection D1 as <-. rewrite E2 in D2. injection D2 as <-.
      split; apply cells_zero; auto; intros ix it ip X I J K EX; destruct (H ix it ip X I J K EX) as [Ha Hb']; destruct (H' ix it ip X I J K EX) as [Ha2 Hb2]; destruct (Req_dec X cl) as [e|ne].
      + now apply Hb'. + rewrite (Ha ne). apply Derive_zero. + now apply Hb2. + rewrite (Ha2 ne). apply Derive2_zero. }
  destruct RAD as [-> ->]. split; auto. split; auto.
  destruct (sph_zero _ Ls) as (S1 & S2 & S3 & S4).
  repeat split; apply (shells_ext g); auto; intros ix Hix; rewrite Z by auto; destruct (A ix Hix) as (B1 & B2 & B3); specialize (Fr ix Hix); rewrite Z in * by auto; congruence.
Qed.

Lemma prhs_zero e : eom_ok g e -> prhs_of g e z z = z.
Proof.
  intros Oe. pose proof (repeat_length (0 : R) n) as L0. pose proof Oe as (En & Lc & Os).
  destruct (set_k_ok b h cl Rmin Rmax nx g Hg Hsh HL H8 H2 e (e_scr e) z z z z Oe Os L0 L0 L0 L0) as [E Lp].
  destruct (set_k_inv _ _ _ _ _ _ _ _ _ E) as (s & Es & _ & _ & _ & _ & H). cbn [with_scr e_scr e_n e_coef] in *.
  destruct (k_sections_ok b h cl Rmin Rmax nx g Hg Hsh HL H8 H2 z z (e_scr e) L0 L0 Os) as [Ek _]. rewrite Ek in Es. injection Es as <-.
  destruct ops_zero as (O1 & O2 & O3 & O4 & O5 & _). unfold scr_of in H. cbn [s_dr_f s_dr_p s_dr_dr_f s_dphi_f s_dphi_dr_f s_lap_f s_sphereX_f] in H.
  rewrite O3, O1, O2, O4, O5 in H.
  apply all_zero; auto. intros i Hi. rewrite <- En in Hi. destruct (H i Hi) as (fi & pi & c & d1 & d2 & d3 & d4 & d5 & d6 & d7 & A1 & A2 & A3 & A4 & A5 & A6 & A7 & A8 & A9 & A10 & A11 & A12).
  assert (ZZ : forall y, nth_error z i = Some y -> y = 0). { intros y Hy. apply nth_error_In in Hy. now apply repeat_spec in Hy. }
  apply ZZ in A1, A2, A4, A5, A6, A7, A8, A9, A10. subst. rewrite (nth_error_nth _ _ 0 A12).
  unfold p_rhs, vprime. R_ops. ring.
Qed.
Lemma axpy_zero c : axpy c z z = z.
Proof.
  unfold axpy. generalize n. intros m. induction m as [|m IH]; [reflexivity|]. cbn [repeat combine map fst snd]. rewrite IH. f_equal. R_ops. ring.
Qed.

(** one step: both levels of both fields stay zero.  k0 + km1 = k(0) <> 0 is what keeps the division in
    inverse_k, hence the arithmetic of the code, meaningful at f = 0; over R the proof does not use it. *)
Theorem C47_vacuum_step e (f p : field R) : e_k0 e + e_km1 e <> 0 ->
  eom_ok g e -> field_ok g f -> field_ok g p -> fl_n f = z -> fl_n p = z ->
  exists f' p' e', time_step g e f p = Ok (f', p', e') /\ fl_n f' = z /\ fl_n p' = z /\ fl_np1 f' = z /\ fl_np1 p' = z.
Proof.
  intros _ Oe Of Op Ef Ep.
  destruct (time_step_closed b h cl Rmin Rmax nx g Hg Hsh HL H8 H2 e f p Oe Of Op) as (f' & p' & s & E & _ & _ & _ & N1 & N2 & _ & _ & V).
  destruct ops_zero as (_ & _ & _ & _ & _ & O6). rewrite Ef, O6 in N1. rewrite Ep, O6 in N2. rewrite Ef, Ep, O6 in V.
  assert (Q : rk4 (rhs_of g e) (e_dt e) (z, z) = (z, z)).
  { unfold rk4, rhs_of, axpy2. cbn [fst snd]. repeat (rewrite ?axpy_zero, ?(prhs_zero e Oe)). reflexivity. }
  rewrite Q in V. injection V as V1 V2. exists f', p', (with_scr e s). auto.
Qed.

(** any number of steps of the main loop (time_step; shift; shift) *)
Fixpoint steps (k : nat) (st : field R * field R * eom R) : res (field R * field R * eom R) :=
  match k with
  | O => Ok st
  | S k => let '(f, p, e) := st in
      let! (f, p, e) := time_step g e f p in let! f := shift f in let! p := shift p in steps k (f, p, e)
  end.
Theorem C47_vacuum_stays k : forall e (f p : field R), e_k0 e + e_km1 e <> 0 ->
  eom_ok g e -> field_ok g f -> field_ok g p -> fl_n f = z -> fl_n p = z ->
  exists f' p' e', steps k (f, p, e) = Ok (f', p', e') /\ fl_n f' = z /\ fl_n p' = z.
Proof.
  induction k as [|k IH]; intros e f p Hk Oe Of Op Ef Ep; [exists f, p, e; auto|]. cbn [steps].
  destruct (C45_time_step_total b h cl Rmin Rmax nx g Hg Hsh HL H8 H2 e f p Oe Of Op) as (f' & p' & e' & E & Oe' & Of' & Op' & (s & ->) & _).
  destruct (C47_vacuum_step e f p Hk Oe Of Op Ef Ep) as (f2 & p2 & e2 & E2 & A1 & A2 & A3 & A4). rewrite E in E2. injection E2 as <- <- <-.
  rewrite E. cbn [bind]. destruct Of' as (S1 & K1 & K2 & K3 & K4). destruct Op' as (T1 & M1 & M2 & M3 & M4).
  rewrite C46_shift by congruence. cbn [bind]. rewrite C46_shift by congruence. cbn [bind].
  apply IH; auto; unfold field_ok; cbn; auto.
Qed.
End Vacuum.

(** non-vacuity over the reals, with a transform of the right shape *)
Lemma null_zero lmax mmax nlat nphi : zero_sht (null_sht lmax mmax nlat nphi).
Proof. unfold zero_sht, null_sht. cbn. unfold vec. auto. Qed.
Example C44_C45_C47_nonvacuous cheb : exists g e f p,
  grid_of (Build cheb true false) (null_sht 4 3 6 8) 50 2 50 10 g /\ shapes (null_sht 4 3 6 8) /\ zero_sht (null_sht 4 3 6 8) /\
  eom_ok g e /\ e_k0 e + e_km1 e <> 0 /\ field_ok g f /\ field_ok g p /\ g_n3 g = 480%nat /\
  fl_n f = repeat 0 480 /\ fl_n p = repeat 0 480 /\ fl_l f = repeat 3 480 /\ e_dt e = 1 / 10.
Proof.
  set (b := Build cheb true false). set (h := null_sht 4 3 6 8).
  destruct (Grid_make_ok b h 50 2 50 10 4 3 6 8) as (g & E); [cbn; lia|left; lia|].
  assert (Hg : grid_of b h 50 2 50 10 g) by exact E. clear E.
  destruct (Eom_make_total b h 50 2 50 10 g Hg (Par 1 10 4 3 6 8 1 (1/10) 50 50 2 1 (7/10) 0 1 0 0 1 0 0 [] [] 0 0 0 0 0)) as (e & He).
  pose proof (Eom_make_ok _ _ _ He) as Oe. pose proof (Eom_make_inv _ _ _ He) as I.
  destruct (gof_sizes b h 50 2 50 10 g Hg) as (_ & En & _ & El & Ep & _).
  assert (N3 : g_n3 g = 480%nat) by (unfold g_n3; rewrite En, El, Ep; reflexivity).
  set (f := Fld [] (repeat 0 480) (repeat 3 480) (repeat 0 480) (repeat 0 480) 480).
  exists g, e, f, f. split; [exact Hg|]. split; [apply null_shapes; lia|]. split; [apply null_zero|]. split; [exact Oe|].
  destruct I as (cs & _ & -> & _). cbn [e_k0 e_km1 e_dt pr_k0 pr_km1 pr_dt].
  assert (Of : field_ok g f) by (unfold field_ok, f; cbn [fl_n fl_l fl_np1 fl_k fl_size]; rewrite !repeat_length, N3; auto).
  split; [lra|]. auto 10.
Qed.
