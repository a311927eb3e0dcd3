(** time_step in closed form (any arithmetic). *)
From Verif Require Import Base BaseLemmas ForList Arith MFd MCheb MSphere MGrid MParams MField MEom
  SphereSpec GridSpec RkSpec PGrid PTables PMake PSphere PSphere2 PGridOp PropTables PropGridOp PConc PEom PEomOk.
Local Open Scope nat_scope.

Section Rk.
Context {F : Type} {AF : Arith F}.
Local Notation half := (fdec 5 (-1)).

(** ** set_level on arrays of the right size *)
Lemma level_closed n (dt : F) (f : field F) :
  length (fl_n f) = n -> length (fl_l f) = n -> length (fl_np1 f) = n -> length (fl_k f) = n ->
  level1 n dt 1 f = Ok (with_l f (fl_n f)) /\
  level1 n dt 2 f = Ok (with_np1 (with_l f (axpy (half * dt)%f (fl_k f) (fl_n f))) (axpy (dt / #6)%f (fl_k f) (fl_n f))) /\
  level1 n dt 3 f = Ok (with_np1 (with_l f (axpy (half * dt)%f (fl_k f) (fl_n f))) (axpy (dt / #3)%f (fl_k f) (fl_np1 f))) /\
  level1 n dt 4 f = Ok (with_np1 (with_l f (axpy dt (fl_k f) (fl_n f))) (axpy (dt / #3)%f (fl_k f) (fl_np1 f))) /\
  level1 n dt 5 f = Ok (with_np1 f (axpy (dt / #6)%f (fl_k f) (fl_np1 f))).
Proof.
  intros L1 L2 L3 L4. unfold level1. cbn [Z.eqb Pos.eqb].
  rewrite set_each_copy, !set_each_axpy, !acc_each_axpy by auto. auto.
Qed.

Lemma with_scr_twice (e : eom F) s s' : with_scr (with_scr e s) s' = with_scr e s'.
Proof. reflexivity. Qed.

Section G.
Variables (b : build) (h : sht F) (cl0 Rmin0 Rmax0 : F) (nx : nat) (g : grid F).
Hypothesis Hg : grid_of b h cl0 Rmin0 Rmax0 nx g.
Hypothesis Hsh : shapes h.
Hypothesis HL : (Z.of_nat (s_lmax h) < 2 ^ 31)%Z.
Hypothesis H8 : use_cheb b = false -> 8 <= nx.
Hypothesis H2 : use_cheb b = true -> 2 <= nx.
Local Notation n := (g_n3 g).

Definition filt_of (v : list F) : list F := match grid_filter g v with Ok r => r | _ => [] end.
Lemma filter_total v : length v = n -> grid_filter g v = Ok (filt_of v) /\ length (filt_of v) = n.
Proof.
  intros L. assert (Hx : 1 <= nx). { destruct (use_cheb b) eqn:E; [specialize (H2 eq_refl)|specialize (H8 eq_refl)]; lia. }
  destruct (C26_filter_is_angular_only b h cl0 Rmin0 Rmax0 nx g Hg v Hsh Hx L) as (r & E & Lr & _).
  unfold filt_of. rewrite E. auto.
Qed.
(** right-hand side as a function of the two arrays *)
Definition rhs_of (e : eom F) (u : state F) : state F := (snd u, prhs_of g e (fst u) (snd u)).

Lemma stage_ok (e : eom F) s level (f p : field F) : eom_ok g e -> scr_ok n s -> field_ok g f -> field_ok g p -> (2 <= level <= 5)%Z ->
  exists f' p', rk_stage g level (f, p, with_scr e s) = Ok (f', p', with_scr e (scr_of g (fl_l f) (fl_l p))) /\
  scr_ok n (scr_of g (fl_l f) (fl_l p)) /\
  field_ok g f' /\ field_ok g p' /\ fl_n f' = fl_n f /\ fl_n p' = fl_n p /\ fl_name f' = fl_name f /\ fl_name p' = fl_name p /\
  fl_k f' = fl_l p /\ fl_k p' = prhs_of g e (fl_l f) (fl_l p) /\
  level1 n (e_dt e) level (with_k f (fl_l p)) = Ok f' /\ level1 n (e_dt e) level (with_k p (prhs_of g e (fl_l f) (fl_l p))) = Ok p'.
Proof.
  intros Oe Os (A0 & A1 & A2 & A3 & A4) (B0 & B1 & B2 & B3 & B4) Hl. unfold rk_stage.
  destruct (set_k_ok b h cl0 Rmin0 Rmax0 nx g Hg Hsh HL H8 H2 e s (fl_l f) (fl_l p) (fl_k f) (fl_k p) Oe Os A2 B2 A4 B4) as [E Lp].
  destruct (k_sections_ok b h cl0 Rmin0 Rmax0 nx g Hg Hsh HL H8 H2 (fl_l f) (fl_l p) s A2 B2 Os) as [_ Os'].
  rewrite E. cbn [bind]. unfold set_level. cbn [with_scr e_n e_dt]. destruct Oe as (En & _). rewrite En.
  destruct (level_closed n (e_dt e) (with_k f (fl_l p))) as (_ & F2 & F3 & F4 & F5); try assumption.
  destruct (level_closed n (e_dt e) (with_k p (prhs_of g e (fl_l f) (fl_l p)))) as (_ & P2 & P3 & P4 & P5); try assumption.
  assert (Hc : (level = 2 \/ level = 3 \/ level = 4 \/ level = 5)%Z) by lia.
  destruct Hc as [->|[->|[->| ->]]].
  all: first [rewrite F2, P2|rewrite F3, P3|rewrite F4, P4|rewrite F5, P5]; cbn [bind]; do 2 eexists;
    (split; [reflexivity|]); (split; [exact Os'|]); unfold field_ok;
    cbn [with_k with_l with_np1 fl_n fl_l fl_np1 fl_k fl_size fl_name]; 
    repeat (rewrite (axpy_length _ _ _ n) by auto); auto 20.
Qed.

Theorem time_step_closed (e : eom F) (f p : field F) : eom_ok g e -> field_ok g f -> field_ok g p ->
  exists f' p' s, time_step g e f p = Ok (f', p', with_scr e s) /\ scr_ok n s /\ field_ok g f' /\ field_ok g p' /\
    fl_n f' = filt_of (fl_n f) /\ fl_n p' = filt_of (fl_n p) /\ fl_name f' = fl_name f /\ fl_name p' = fl_name p /\
    (fl_np1 f', fl_np1 p') = rk4 (rhs_of e) (e_dt e) (filt_of (fl_n f), filt_of (fl_n p)).
Proof.
  intros Oe Of Op. pose proof Of as (A0 & A1 & A2 & A3 & A4). pose proof Op as (B0 & B1 & B2 & B3 & B4). pose proof Oe as (En & Lc & Os).
  destruct (filter_total _ A1) as [Ef Lf]. destruct (filter_total _ B1) as [Ep Lp].
  unfold time_step. rewrite A0, B0, En, Nat.eqb_refl. rewrite !assert_true by reflexivity. cbn [bind]. rewrite Ef. cbn [bind]. rewrite Ep. cbn [bind].
  set (uf := filt_of (fl_n f)) in *. set (up := filt_of (fl_n p)) in *.
  unfold set_level. rewrite En.
  destruct (level_closed n (e_dt e) (with_n f uf)) as (F1 & _); try assumption. destruct (level_closed n (e_dt e) (with_n p up)) as (P1 & _); try assumption.
  rewrite F1. cbn [bind]. rewrite P1. cbn [bind]. clear F1 P1.
  assert (E0 : with_scr e (e_scr e) = e) by (destruct e; reflexivity).
  set (f1 := with_l (with_n f uf) (fl_n (with_n f uf))). set (p1 := with_l (with_n p up) (fl_n (with_n p up))).
  assert (Of1 : field_ok g f1) by (unfold field_ok, f1; cbn; auto). assert (Op1 : field_ok g p1) by (unfold field_ok, p1; cbn; auto).
  destruct (stage_ok e (e_scr e) 2 f1 p1 Oe Os Of1 Op1 ltac:(lia)) as (f2 & p2 & E2 & S2 & Of2 & Op2 & N2 & N2' & M2 & M2' & K2 & K2' & V2 & W2).
  rewrite E0 in E2. rewrite E2. cbn [bind].
  destruct (stage_ok e _ 3 f2 p2 Oe S2 Of2 Op2 ltac:(lia)) as (f3 & p3 & E3 & S3 & Of3 & Op3 & N3 & N3' & M3 & M3' & K3 & K3' & V3 & W3).
  rewrite E3. cbn [bind].
  destruct (stage_ok e _ 4 f3 p3 Oe S3 Of3 Op3 ltac:(lia)) as (f4 & p4 & E4 & S4 & Of4 & Op4 & N4 & N4' & M4 & M4' & K4 & K4' & V4 & W4).
  rewrite E4. cbn [bind].
  destruct (stage_ok e _ 5 f4 p4 Oe S4 Of4 Op4 ltac:(lia)) as (f5 & p5 & E5 & S5 & Of5 & Op5 & N5 & N5' & M5 & M5' & K5 & K5' & V5 & W5).
  rewrite E5. exists f5, p5, (scr_of g (fl_l f4) (fl_l p4)). split; auto. split; auto. split; auto. split; auto.
  rewrite N5, N4, N3, N2, N5', N4', N3', N2'. split; auto. split; auto. rewrite M5, M4, M3, M2, M5', M4', M3', M2'. split; auto. split; auto.
  (* values *)
  assert (LC : forall lv x x', level1 n (e_dt e) lv x = Ok x' -> field_ok g x -> 
     (lv = 2%Z -> x' = with_np1 (with_l x (axpy (half * e_dt e)%f (fl_k x) (fl_n x))) (axpy (e_dt e / #6)%f (fl_k x) (fl_n x))) /\
     (lv = 3%Z -> x' = with_np1 (with_l x (axpy (half * e_dt e)%f (fl_k x) (fl_n x))) (axpy (e_dt e / #3)%f (fl_k x) (fl_np1 x))) /\
     (lv = 4%Z -> x' = with_np1 (with_l x (axpy (e_dt e) (fl_k x) (fl_n x))) (axpy (e_dt e / #3)%f (fl_k x) (fl_np1 x))) /\
     (lv = 5%Z -> x' = with_np1 x (axpy (e_dt e / #6)%f (fl_k x) (fl_np1 x)))).
  { intros lv x x' E (_ & X1 & X2 & X3 & X4). destruct (level_closed n (e_dt e) x X1 X2 X3 X4) as (_ & T2 & T3 & T4 & T5).
    repeat split; intros ->; [rewrite T2 in E|rewrite T3 in E|rewrite T4 in E|rewrite T5 in E]; now injection E. }
  assert (OK : forall x k, field_ok g x -> length k = n -> field_ok g (with_k x k)) by (intros x k (? & ? & ? & ? & ?) ?; unfold field_ok; cbn; auto).
  assert (Lk : forall x y, field_ok g x -> field_ok g y -> length (prhs_of g e (fl_l x) (fl_l y)) = n).
  { intros x y (X0 & X1 & X2 & X3 & X4) (Y0 & Y1 & Y2 & Y3 & Y4). now destruct (set_k_ok b h cl0 Rmin0 Rmax0 nx g Hg Hsh HL H8 H2 e (e_scr e) (fl_l x) (fl_l y) (fl_l x) (fl_l y) Oe Os X2 Y2 X2 Y2). }
  assert (Ll : forall x, field_ok g x -> length (fl_l x) = n) by (intros x (_ & _ & ? & _); auto).
  destruct (LC 2%Z _ _ V2) as (V2' & _); [auto|]. destruct (LC 2%Z _ _ W2) as (W2' & _); [auto|].
  destruct (LC 3%Z _ _ V3) as (_ & V3' & _); [auto|]. destruct (LC 3%Z _ _ W3) as (_ & W3' & _); [auto|].
  destruct (LC 4%Z _ _ V4) as (_ & _ & V4' & _); [auto|]. destruct (LC 4%Z _ _ W4) as (_ & _ & W4' & _); [auto|].
  destruct (LC 5%Z _ _ V5) as (_ & _ & _ & V5'); [auto|]. destruct (LC 5%Z _ _ W5) as (_ & _ & _ & W5'); [auto|].
  specialize (V2' eq_refl). specialize (W2' eq_refl). specialize (V3' eq_refl). specialize (W3' eq_refl).
  specialize (V4' eq_refl). specialize (W4' eq_refl). specialize (V5' eq_refl). specialize (W5' eq_refl).
  unfold rk4, rhs_of, axpy2. cbn [fst snd]. rewrite V5', W5', V4', W4', V3', W3', V2', W2'. reflexivity.
Qed.
End G.
End Rk.
