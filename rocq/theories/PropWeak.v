(** * Property C97: the weak-field limit of the evolution (real arithmetic). *)
From Coq Require Import Reals Lra.
From Coquelicot Require Import Coquelicot.
From Verif Require Import Base BaseLemmas ForList Arith MFd MCheb MSphere MGrid MParams MField MEom
  Spec SphereSpec GridSpec RkSpec SymSpec SpreadSpec PSum PGrid PTables PMake PSphere PSphere2 PSphereR PGridOp
  PropFd2 PropTables PropGridOp PropRad PropGridFilter PConc PEom PEomOk PRk PEomR PropRk PDriver PropDriver PLinear PropSym.
Local Open Scope R_scope.

(** a curve of lists through zero at 0, with its derivative there *)
Definition curve0 (m : nat) (u : R -> list R) (du : list R) : Prop :=
  (forall t, length (u t) = m) /\ length du = m /\
  forall i, (i < m)%nat -> nth i (u 0) 0 = 0 /\ is_derive (fun t => nth i (u t) 0) 0 (nth i du 0).
Definition lin_fun (m : nat) (phi : list R -> R) : Prop :=
  forall a v c w, length v = m -> length w = m -> phi (lincomb a v c w) = a * phi v + c * phi w.
Definition unitv (m k : nat) : list R := map (fun i => if (i =? k)%nat then 1 else 0) (seq 0 m).
Definition truncv (m k : nat) (v : list R) : list R := map (fun i => if (i <? k)%nat then nth i v 0 else 0) (seq 0 m).

Lemma lin_fun_zero m phi : lin_fun m phi -> phi (repeat 0 m) = 0.
Proof.
  intros H. assert (L : length (repeat 0 m) = m) by apply repeat_length. specialize (H 0 (repeat 0 m) 0 (repeat 0 m) L L).
  replace (lincomb 0 (repeat 0 m) 0 (repeat 0 m)) with (repeat 0 m) in H; [lra|].
  apply (nth_ext _ _ 0 0); [rewrite (lincomb_length _ _ _ _ m); auto|]. intros i Hi. rewrite L in Hi. rewrite (nth_lincomb _ _ _ _ _ m) by auto. rewrite nth_repeat. ring.
Qed.
Lemma lin_fun_matrix m phi v : lin_fun m phi -> length v = m -> phi v = Rsum m (fun k => nth k v 0 * phi (unitv m k)).
Proof.
  intros H Lv. assert (Lt : forall k, length (truncv m k v) = m) by (intros; unfold truncv; now rewrite map_length, seq_length).
  assert (Lu : forall k, length (unitv m k) = m) by (intros; unfold unitv; now rewrite map_length, seq_length).
  assert (G : forall k, (k <= m)%nat -> phi (truncv m k v) = Rsum k (fun k => nth k v 0 * phi (unitv m k))).
  { induction k as [|k IH]; intros Hk.
    - cbn [Rsum]. transitivity (phi (repeat 0 m)); [f_equal|now apply lin_fun_zero]. apply (nth_ext _ _ 0 0); [rewrite Lt, repeat_length; auto|]. intros i Hi. rewrite Lt in Hi.
      unfold truncv. rewrite nth_map_seq by auto. now rewrite nth_repeat.
    - cbn [Rsum]. rewrite <- IH by lia. replace (truncv m (S k) v) with (lincomb 1 (truncv m k v) (nth k v 0) (unitv m k)).
      + rewrite H by auto. ring.
      + apply (nth_ext _ _ 0 0); [rewrite Lt; now apply lincomb_length|]. intros i Hi. rewrite (lincomb_length _ _ _ _ m) in Hi by auto.
        rewrite (nth_lincomb _ _ _ _ _ m) by auto. unfold truncv, unitv. rewrite !nth_map_seq by auto.
        destruct (Nat.ltb_spec i k), (Nat.ltb_spec i (S k)), (Nat.eqb_spec i k); try lia; subst; ring. }
  rewrite <- G by lia. f_equal. apply (nth_ext _ _ 0 0); [now rewrite Lt|]. intros i Hi. unfold truncv. rewrite nth_map_seq by lia. destruct (Nat.ltb_spec i m); [auto|lia].
Qed.
Lemma Rsum_derive m (a : nat -> R -> R) (d : nat -> R) x : (forall k, (k < m)%nat -> is_derive (a k) x (d k)) -> is_derive (fun t => Rsum m (fun k => a k t)) x (Rsum m d).
Proof.
  induction m as [|m IH]; intros H; cbn [Rsum]; [auto_derive; auto|].
  apply (is_derive_plus (fun t => Rsum m (fun k => a k t)) (a m)); [apply IH; intros; apply H; lia|apply H; lia].
Qed.
Lemma der_scal (f : R -> R) c x d : is_derive f x d -> is_derive (fun t => f t * c) x (d * c).
Proof. intros D. auto_derive; [eexists; exact D|]. change (Derive (fun t => f t) x) with (Derive f x). rewrite (is_derive_unique f x d D). ring. Qed.
Lemma der_axpy (f k : R -> R) c x d e : is_derive f x d -> is_derive k x e -> is_derive (fun t => f t + c * k t) x (d + c * e).
Proof. intros D E. auto_derive; [repeat split; try (eexists; eassumption)|]. change (Derive (fun t => f t) x) with (Derive f x). change (Derive (fun t => k t) x) with (Derive k x). rewrite (is_derive_unique f x d D), (is_derive_unique k x e E). ring. Qed.
Lemma curve_fun m phi u du : lin_fun m phi -> curve0 m u du -> phi (u 0) = 0 /\ is_derive (fun t => phi (u t)) 0 (phi du).
Proof.
  intros H (L & Ld & C). split.
  - transitivity (phi (repeat 0 m)); [f_equal|now apply lin_fun_zero]. apply (nth_ext _ _ 0 0); [now rewrite repeat_length|]. intros i Hi. rewrite L in Hi. rewrite nth_repeat. now apply C.
  - rewrite (lin_fun_matrix m phi du H Ld). apply (is_derive_ext (fun t => Rsum m (fun k => nth k (u t) 0 * phi (unitv m k)))); [intros; symmetry; now apply lin_fun_matrix|].
    apply Rsum_derive. intros k Hk. destruct (C k Hk) as [_ D]. exact (der_scal (fun t => nth k (u t) 0) _ _ _ D).
Qed.

(** the theory seen by weak fields: constant k = k(0), V = V2 psi^2/2 *)
Definition free_of (e : eom R) : eom R :=
  Eom (e_n e) (e_dt e) 0 (e_k0 e + e_km1 e) 0 0 (e_v2 e) 0 0 (e_coef e) (e_scr e).
Lemma p_rhs_deriv e c (f p dr drp drr dph dphr lp sX : R -> R) df dp ddr ddrp ddrr ddph ddphr dlp : e_k0 e + e_km1 e <> 0 ->
  (forall q, In q [f; p; dr; drp; drr; dph; dphr; lp; sX] -> q 0 = 0) ->
  is_derive f 0 df -> is_derive p 0 dp -> is_derive dr 0 ddr -> is_derive drp 0 ddrp -> is_derive drr 0 ddrr -> is_derive dph 0 ddph -> is_derive dphr 0 ddphr ->
  is_derive lp 0 dlp -> is_derive sX 0 0 -> forall dsX,
  p_rhs e c (f 0) (p 0) (dr 0) (drp 0) (drr 0) (dph 0) (dphr 0) (lp 0) (sX 0) = 0 /\
  is_derive (fun t => p_rhs e c (f t) (p t) (dr t) (drp t) (drr t) (dph t) (dphr t) (lp t) (sX t)) 0 (p_rhs (free_of e) c df dp ddr ddrp ddrr ddph ddphr dlp dsX).
Proof.
  intros Hk HZ. assert (Zf : f 0 = 0) by (apply HZ; cbn; tauto). assert (Zp : p 0 = 0) by (apply HZ; cbn; tauto). assert (Zdr : dr 0 = 0) by (apply HZ; cbn; tauto).
  assert (Zdrp : drp 0 = 0) by (apply HZ; cbn; tauto). assert (Zdrr : drr 0 = 0) by (apply HZ; cbn; tauto). assert (Zdph : dph 0 = 0) by (apply HZ; cbn; tauto).
  assert (Zdphr : dphr 0 = 0) by (apply HZ; cbn; tauto). assert (Zlp : lp 0 = 0) by (apply HZ; cbn; tauto). assert (ZsX : sX 0 = 0) by (apply HZ; cbn; tauto). clear HZ.
  intros D1 D2 D3 D4 D5 D6 D7 D8 D9 dsX.
  assert (FR : p_rhs (free_of e) c df dp ddr ddrp ddrr ddph ddphr dlp dsX =
    c_p c * dp + c_dr_f c * ddr + c_dr_p c * ddrp + c_dr_dr_f c * ddrr + c_dphi_dr_f c * ddphr + c_lap_f c * dlp - c_pre c * (/ (e_k0 e + e_km1 e) * (e_v2 e * df))).
  { assert (I : forall x, inverse_k (free_of e) x = / (e_k0 e + e_km1 e)).
    { intros x. unfold inverse_k, free_of. cbn [e_km1 e_k0 e_k1 e_k2]. R_ops. unfold Rdiv. rewrite !Rmult_0_l, !Rplus_0_r. ring. }
    assert (K : forall x, kprime (free_of e) x = 0). { intros x. unfold kprime, free_of. cbn [e_km1 e_k0 e_k1 e_k2]. R_ops. unfold Rdiv. ring. }
    unfold p_rhs, vprime. rewrite !I, !K. unfold free_of. cbn [e_v2 e_v3 e_v4]. R_ops. unfold Rdiv. rewrite !Rmult_0_l. ring. }
  rewrite FR. clear FR. unfold p_rhs, vprime, inverse_k, kprime. R_ops.
  split.
  - rewrite Zf, Zp, Zdr, Zdrp, Zdrr, Zdph, Zdphr, Zlp, ZsX. field. repeat split; try lra.
  - auto_derive.
    + rewrite Zf. repeat split; try (eexists; eassumption); try lra.
    + change (fun x : R => f x) with f. change (fun x : R => p x) with p. change (fun x : R => dr x) with dr. change (fun x : R => drp x) with drp. change (fun x : R => drr x) with drr.
      change (fun x : R => dph x) with dph. change (fun x : R => dphr x) with dphr. change (fun x : R => lp x) with lp. change (fun x : R => sX x) with sX.
      rewrite (is_derive_unique _ _ _ D1), (is_derive_unique _ _ _ D2), (is_derive_unique _ _ _ D3), (is_derive_unique _ _ _ D4), (is_derive_unique _ _ _ D5), (is_derive_unique _ _ _ D6),
        (is_derive_unique _ _ _ D7), (is_derive_unique _ _ _ D8), (is_derive_unique _ _ _ D9), ?Zf, ?Zp, ?Zdr, ?Zdrp, ?Zdrr, ?Zdph, ?Zdphr, ?Zlp, ?ZsX.
      field. repeat split; try lra.
Qed.

Section G.
Variables (b : build) (h : sht R) (cl Rmin Rmax : R) (nx : nat) (g : grid R).
Hypothesis Hg : grid_of b h cl Rmin Rmax nx g.
Hypothesis Hsh : shapes h.
Hypothesis HL : (Z.of_nat (s_lmax h) < 2 ^ 31)%Z.
Hypothesis H8 : (use_cheb b = false -> 8 <= nx)%nat.
Hypothesis H2 : (use_cheb b = true -> 2 <= nx)%nat.
Hypothesis Hln : linear_sht h.
Local Notation n := (g_n3 g).
Local Notation N := (s_nlat h * s_nphi h)%nat.

Lemma curve_op op u du : grid_linear g op -> (forall v, length v = n -> length (op v) = n) -> curve0 n u du -> curve0 n (fun t => op (u t)) (op du).
Proof.
  intros H L C. pose proof C as (L1 & L2 & _). split; [intros; now apply L|]. split; [now apply L|]. intros i Hi.
  apply (curve_fun n (fun v => nth i (op v) 0) u du); auto. intros a v c w Lv Lw. rewrite H by auto. apply (nth_lincomb _ _ _ _ _ n); auto.
Qed.
Lemma curve_axpy t0 u du k dk : curve0 n u du -> curve0 n k dk -> curve0 n (fun t => axpy t0 (k t) (u t)) (axpy t0 dk du).
Proof.
  intros (A1 & A2 & A3) (B1 & B2 & B3). split; [intros; now apply axpy_length|]. split; [now apply axpy_length|]. intros i Hi.
  destruct (A3 i Hi) as [A4 A5]. destruct (B3 i Hi) as [B4 B5].
  assert (E : forall k u : list R, length k = n -> length u = n -> nth i (axpy t0 k u) 0 = nth i u 0 + t0 * nth i k 0).
  { intros k' u' Lk Lu. assert (Q1 : nth_error u' i = Some (nth i u' 0)) by (apply nth_error_nth'; lia). assert (Q2 : nth_error k' i = Some (nth i k' 0)) by (apply nth_error_nth'; lia).
    pose proof (axpy_nth t0 k' u' i _ _ Q1 Q2) as Q. apply (nth_error_nth _ _ 0) in Q. rewrite Q. R_ops. ring. }
  rewrite E by auto. split; [rewrite A4, B4; ring|]. rewrite (E dk du) by auto. apply (is_derive_ext (fun t => nth i (u t) 0 + t0 * nth i (k t) 0)); [intros; symmetry; apply E; auto|].
  exact (der_axpy (fun t => nth i (u t) 0) (fun t => nth i (k t) 0) t0 0 _ _ A5 B5).
Qed.
(** sphereX is of second order *)
Lemma curve_sX u du i : curve0 n u du -> (i < n)%nat -> nth i (sX_of g (u 0)) 0 = 0 /\ is_derive (fun t => nth i (sX_of g (u t)) 0) 0 0.
Proof.
  intros C Hi. pose proof C as (L1 & L2 & L3). destruct (gof_sizes b h cl Rmin Rmax nx g Hg) as (Eb & En & _ & El & Ep & Hs & _).
  assert (Lz : length (zero3 g) = n) by apply vec_length. assert (L0 : length (sph0 g) = N) by (rewrite sph0_length; congruence).
  destruct (ix_R_th_ph_surj (g_bld g) (g_nx g) (g_nlat g) (g_nphi g) i Hi) as (ix & it & ip & Hx & Ht & Hp & Ei).
  assert (Hj : (indx_th_ph g it ip < N)%nat) by (unfold indx_th_ph; rewrite <- El, <- Ep; apply ix_th_ph_lt; auto).
  set (j := indx_th_ph g it ip) in *.
  assert (SC : curve0 N (fun t => shell g (u t) ix) (shell g du ix)).
  { split; [intros; rewrite shell_length; auto; congruence|]. split; [rewrite shell_length; auto; congruence|]. intros q Hq.
    destruct (ix_th_ph_surj (g_bld g) (g_nlat g) (g_nphi g) q) as (it' & ip' & Ht' & Hp' & <-); [rewrite El, Ep; exact Hq|].
    assert (HI : (indx_R_th_ph g ix it' ip' < n)%nat) by (unfold indx_R_th_ph, g_n3; apply ix_R_th_ph_lt; auto).
    assert (E : forall v, length v = n -> nth (ix_th_ph (g_bld g) (g_nlat g) (g_nphi g) it' ip') (shell g v ix) 0 = nth (indx_R_th_ph g ix it' ip') v 0).
    { intros v Lv. apply nth_error_nth. pose proof (nth_error_shell_pt g v ix it' ip' Ht' Hp') as Q. unfold indx_th_ph in Q. rewrite Q. apply nth_error_nth'. lia. }
    destruct (L3 _ HI) as [A B]. rewrite !E by auto. split; auto. apply (is_derive_ext (fun t => nth (indx_R_th_ph g ix it' ip') (u t) 0)); [intros; symmetry; auto|auto]. }
  pose (rv := fun v => match raise b (g_sphere g) v (vec N c0) with Ok r => r | _ => [] end).
  pose (lv := fun v => match lower b (g_sphere g) v (vec N c0) with Ok r => r | _ => [] end).
  pose (dv := fun v => match partial_phi b (g_sphere g) v (sph0 g) with Ok r => r | _ => [] end).
  destruct (ladder_linear b h cl Rmin Rmax nx g Hg Hsh HL H8 H2 Hln) as [RL LLn]. destruct (sph_ops_linear b h cl Rmin Rmax nx g Hg Hsh Hln) as [PL _].
  assert (Q0 : sph0 g = vec N f0) by (unfold sph0; rewrite El, Ep; reflexivity).
  assert (OKs : forall v, length v = N -> exists r l d o, raise b (g_sphere g) v (vec N c0) = Ok r /\ lower b (g_sphere g) v (vec N c0) = Ok l /\ partial_phi b (g_sphere g) v (sph0 g) = Ok d /\
     sphereX b (g_sphere g) v (sph0 g) = Ok o /\ length r = N /\ length l = N /\ length d = N /\ length o = N /\
     nth j o 0 = - (fst (nth j r (0,0)) * fst (nth j l (0,0)) - snd (nth j r (0,0)) * snd (nth j l (0,0))) + nth j d 0 ^ 2).
  { intros v Lv. destruct (sphereX_ok b h (g_sphere g) Hsh Hs v (sph0 g) HL Lv L0) as (r1 & l1 & d1 & o1 & A1 & A2 & A3 & A4 & A5 & A6 & A7 & A8 & A9).
    exists r1, l1, d1, o1. rewrite Q0 at 1. do 8 (split; [assumption|]). specialize (A9 j Hj). exact A9. }
  assert (F1 : lin_fun N (fun v => fst (nth j (rv v) (0,0)))).
  { intros a v c w Lv Lw. destruct (OKs v Lv) as (r & _ & _ & _ & E & _ & _ & _ & Lr & _). destruct (OKs w Lw) as (r' & _ & _ & _ & E' & _ & _ & _ & Lr' & _).
    unfold rv. rewrite (RL a v c w r r' Lv Lw E E'), E, E'. now rewrite (nth_clincomb _ _ _ _ _ N) by auto. }
  assert (F2 : lin_fun N (fun v => snd (nth j (rv v) (0,0)))).
  { intros a v c w Lv Lw. destruct (OKs v Lv) as (r & _ & _ & _ & E & _ & _ & _ & Lr & _). destruct (OKs w Lw) as (r' & _ & _ & _ & E' & _ & _ & _ & Lr' & _).
    unfold rv. rewrite (RL a v c w r r' Lv Lw E E'), E, E'. now rewrite (nth_clincomb _ _ _ _ _ N) by auto. }
  assert (F3 : lin_fun N (fun v => fst (nth j (lv v) (0,0)))).
  { intros a v c w Lv Lw. destruct (OKs v Lv) as (_ & r & _ & _ & _ & E & _ & _ & _ & Lr & _). destruct (OKs w Lw) as (_ & r' & _ & _ & _ & E' & _ & _ & _ & Lr' & _).
    unfold lv. rewrite (LLn a v c w r r' Lv Lw E E'), E, E'. now rewrite (nth_clincomb _ _ _ _ _ N) by auto. }
  assert (F4 : lin_fun N (fun v => snd (nth j (lv v) (0,0)))).
  { intros a v c w Lv Lw. destruct (OKs v Lv) as (_ & r & _ & _ & _ & E & _ & _ & _ & Lr & _). destruct (OKs w Lw) as (_ & r' & _ & _ & _ & E' & _ & _ & _ & Lr' & _).
    unfold lv. rewrite (LLn a v c w r r' Lv Lw E E'), E, E'. now rewrite (nth_clincomb _ _ _ _ _ N) by auto. }
  assert (F5 : lin_fun N (fun v => nth j (dv v) 0)).
  { intros a v c w Lv Lw. destruct (OKs v Lv) as (_ & _ & r & _ & _ & _ & E & _ & _ & _ & Lr & _). destruct (OKs w Lw) as (_ & _ & r' & _ & _ & _ & E' & _ & _ & _ & Lr' & _).
    unfold dv. rewrite (PL a v c w r r' Lv Lw E E'), E, E'. now rewrite (nth_lincomb _ _ _ _ _ N) by auto. }
  assert (K : forall v, length v = n -> nth i (sX_of g v) 0 =
     - (fst (nth j (rv (shell g v ix)) (0,0)) * fst (nth j (lv (shell g v ix)) (0,0)) - snd (nth j (rv (shell g v ix)) (0,0)) * snd (nth j (lv (shell g v ix)) (0,0))) + nth j (dv (shell g v ix)) 0 ^ 2).
  { intros v Lv. destruct (C23_angular b h cl Rmin Rmax nx g Hg v (zero3 g) Hsh HL Lv Lz) as (x1 & x2 & x3 & E1 & E2 & E3 & M1 & M2 & M3 & A).
    destruct (A ix Hx) as (_ & _ & A3). assert (LS : length (shell g v ix) = N) by (rewrite shell_length; auto; congruence).
    destruct (OKs _ LS) as (r & l & d & o & O1 & O2 & O3 & O4 & _ & _ & _ & Lo & O5). unfold rv, lv, dv. rewrite O1, O2, O3, <- O5.
    unfold sX_of. rewrite E3. assert (shell g x3 ix = o) by congruence. subst o. symmetry. apply nth_error_nth. unfold j.
    rewrite nth_error_shell_pt by auto. fold (indx_R_th_ph g ix it ip) in Ei. rewrite Ei. apply nth_error_nth'. lia. }
  destruct (curve_fun _ _ _ _ F1 SC) as [Z1 D1]. destruct (curve_fun _ _ _ _ F2 SC) as [Z2 D2]. destruct (curve_fun _ _ _ _ F3 SC) as [Z3 D3].
  destruct (curve_fun _ _ _ _ F4 SC) as [Z4 D4]. destruct (curve_fun _ _ _ _ F5 SC) as [Z5 D5]. cbv beta in *.
  split; [rewrite K, Z1, Z2, Z3, Z4, Z5 by auto; ring|].
  eapply is_derive_ext; [intros t; symmetry; apply K; auto|].
  set (q1 := fun t => fst (nth j (rv (shell g (u t) ix)) (0, 0))) in *. set (q2 := fun t => snd (nth j (rv (shell g (u t) ix)) (0, 0))) in *.
  set (q3 := fun t => fst (nth j (lv (shell g (u t) ix)) (0, 0))) in *. set (q4 := fun t => snd (nth j (lv (shell g (u t) ix)) (0, 0))) in *.
  set (q5 := fun t => nth j (dv (shell g (u t) ix)) 0) in *.
  change (is_derive (fun t => - (q1 t * q3 t - q2 t * q4 t) + q5 t ^ 2) 0 0).
  auto_derive; [repeat split; try (eexists; eassumption)|].
  change (q1 0 = 0) in Z1. change (q2 0 = 0) in Z2. change (q3 0 = 0) in Z3. change (q4 0 = 0) in Z4. change (q5 0 = 0) in Z5. rewrite Z1, Z2, Z3, Z4, Z5. ring.
Qed.

Definition curve2 (u : R -> state R) (du : state R) : Prop := curve0 n (fun t => fst (u t)) (fst du) /\ curve0 n (fun t => snd (u t)) (snd du).
Lemma curve2_sized u du : curve2 u du -> (forall t, sized g (u t)) /\ sized g du.
Proof. intros [(A1 & A2 & _) (B1 & B2 & _)]. split; [intros t; split; auto|split; auto]. Qed.
Lemma free_ok e : eom_ok g e -> eom_ok g (free_of e).
Proof. intros (A & B & C). unfold eom_ok, free_of. cbn. auto. Qed.
Lemma op_lens v : length v = n -> length (dr_of g v) = n /\ length (drr_of g v) = n /\ length (dphi_of g v) = n /\ length (lap_of g v) = n.
Proof. intros Lv. destruct (ops_ok b h cl Rmin Rmax nx g Hg Hsh HL H8 H2 v v Lv Lv) as (_ & _ & _ & _ & _ & P1 & P2 & P3 & P4 & _). auto. Qed.
Lemma curve_rhs e u du : eom_ok g e -> e_k0 e + e_km1 e <> 0 -> curve2 u du -> curve2 (fun t => rhs_of g e (u t)) (rhs_of g (free_of e) du).
Proof.
  intros Oe Hk C. pose proof (curve2_sized u du C) as [Su Sd]. destruct C as [Cf Cp]. split; [exact Cp|].
  assert (RS := fun t => rhs_sized b h cl Rmin Rmax nx g Hg Hsh HL H8 H2 e (u t) Oe (Su t)).
  assert (RD := rhs_sized b h cl Rmin Rmax nx g Hg Hsh HL H8 H2 (free_of e) du (free_ok e Oe) Sd).
  split; [intros t; apply RS|]. split; [apply RD|]. intros i Hi. cbn [rhs_of snd].
  destruct (ops_linear b h cl Rmin Rmax nx g Hg Hsh HL H8 H2 Hln) as (D1 & D2 & D3 & D4 & _).
  pose proof (curve_op _ _ _ D1 (fun v L => proj1 (op_lens v L)) Cf) as C1.
  pose proof (curve_op _ _ _ D1 (fun v L => proj1 (op_lens v L)) Cp) as C2.
  pose proof (curve_op _ _ _ D2 (fun v L => proj1 (proj2 (op_lens v L))) Cf) as C3.
  pose proof (curve_op _ _ _ D3 (fun v L => proj1 (proj2 (proj2 (op_lens v L)))) Cf) as C4.
  pose proof (curve_op _ _ _ D1 (fun v L => proj1 (op_lens v L)) C4) as C5.
  pose proof (curve_op _ _ _ D4 (fun v L => proj2 (proj2 (proj2 (op_lens v L)))) Cf) as C6.
  destruct (curve_sX _ _ i Cf Hi) as [Z9 X9].
  destruct Cf as (_ & _ & Cf), Cp as (_ & _ & Cp), C1 as (_ & _ & C1), C2 as (_ & _ & C2), C3 as (_ & _ & C3), C4 as (_ & _ & C4), C5 as (_ & _ & C5), C6 as (_ & _ & C6).
  destruct (Cf i Hi) as [Z1 X1], (Cp i Hi) as [Z2 X2], (C1 i Hi) as [Z3 X3], (C2 i Hi) as [Z4 X4], (C3 i Hi) as [Z5 X5], (C4 i Hi) as [Z6 X6], (C5 i Hi) as [Z7 X7], (C6 i Hi) as [Z8 X8].
  destruct (p_rhs_deriv e (nth i (e_coef e) coef0) _ _ _ _ _ _ _ _ _ _ _ _ _ _ _ _ _ Hk (fun q (Hq : In q [fun t => nth i (fst (u t)) 0; fun t => nth i (snd (u t)) 0; fun t => nth i (dr_of g (fst (u t))) 0;
     fun t => nth i (dr_of g (snd (u t))) 0; fun t => nth i (drr_of g (fst (u t))) 0; fun t => nth i (dphi_of g (fst (u t))) 0; fun t => nth i (dr_of g (dphi_of g (fst (u t)))) 0;
     fun t => nth i (lap_of g (fst (u t))) 0; fun t => nth i (sX_of g (fst (u t))) 0]) =>
     ltac:(cbn [In] in Hq; repeat (destruct Hq as [<-|Hq]; [assumption|]); destruct Hq)) X1 X2 X3 X4 X5 X6 X7 X8 X9 (nth i (sX_of g (fst du)) 0)) as [K0 K1].
  split.
  - etransitivity; [|exact K0]. apply (prhs_at b h cl Rmin Rmax nx g Hg Hsh HL H8 H2); auto; apply Su.
  - rewrite (prhs_at b h cl Rmin Rmax nx g Hg Hsh HL H8 H2 (free_of e)); [|now apply free_ok|apply Sd|apply Sd|auto].
    eapply is_derive_ext; [|exact K1]. intros t. cbv beta. symmetry. apply (prhs_at b h cl Rmin Rmax nx g Hg Hsh HL H8 H2); auto; apply Su.
Qed.
Lemma curve_axpy2 t0 u du k dk : curve2 u du -> curve2 k dk -> curve2 (fun t => axpy2 t0 (k t) (u t)) (axpy2 t0 dk du).
Proof. intros [A B] [C D]. split; unfold axpy2; cbn [fst snd]; now apply curve_axpy. Qed.
Lemma curve_rk4 e dt u du : eom_ok g e -> e_k0 e + e_km1 e <> 0 -> curve2 u du -> curve2 (fun t => rk4 (rhs_of g e) dt (u t)) (rk4 (rhs_of g (free_of e)) dt du).
Proof.
  intros Oe Hk C. unfold rk4. cbv zeta.
  pose proof (curve_rhs e _ _ Oe Hk C) as K1.
  pose proof (curve_rhs e _ _ Oe Hk (curve_axpy2 (fdec 5 (-1) * dt)%f _ _ _ _ C K1)) as K2.
  pose proof (curve_rhs e _ _ Oe Hk (curve_axpy2 (fdec 5 (-1) * dt)%f _ _ _ _ C K2)) as K3.
  pose proof (curve_rhs e _ _ Oe Hk (curve_axpy2 dt _ _ _ _ C K3)) as K4. cbv beta in *.
  repeat (match goal with |- curve2 (fun t => axpy2 ?c (@?k t) (@?u t)) _ => apply (curve_axpy2 c u _ k) end); assumption.
Qed.
Lemma curve_advance e u du : eom_ok g e -> e_k0 e + e_km1 e <> 0 -> curve2 u du -> curve2 (fun t => advance g e (u t)) (advance g (free_of e) du).
Proof.
  intros Oe Hk [A B]. Transparent advance. unfold advance. Opaque advance. destruct (ops_linear b h cl Rmin Rmax nx g Hg Hsh HL H8 H2 Hln) as (_ & _ & _ & _ & D5).
  assert (LF : forall v, length v = n -> length (filt_of g v) = n) by (intros; now apply (filter_total b h cl Rmin Rmax nx g Hg Hsh H8 H2)).
  change (e_dt (free_of e)) with (e_dt e). apply (curve_rk4 e (e_dt e) (fun t => (filt_of g (fst (u t)), filt_of g (snd (u t)))) (filt_of g (fst du), filt_of g (snd du)) Oe Hk).
  split; cbn [fst snd]; now apply curve_op.
Qed.
Lemma curve_iter e j : eom_ok g e -> e_k0 e + e_km1 e <> 0 -> forall u du, curve2 u du ->
  curve2 (fun t => Nat.iter j (advance g e) (u t)) (Nat.iter j (advance g (free_of e)) du).
Proof.
  intros Oe Hk u du C. induction j as [|j IH]; [exact C|]. exact (curve_advance e _ _ Oe Hk IH).
Qed.

(** The initial data of f and p multiplied by an amplitude t, evolved j steps in any theory with k(0) <> 0: every
    run succeeds; at t = 0 the fields vanish; and the derivative of every grid value with respect to t at t = 0 is
    the value the free theory (constant k = k(0), V = V2 psi^2/2) gives for the unscaled data. *)
Theorem C97_weak_field_limit e (f p : field R) j : eom_ok g e -> e_k0 e + e_km1 e <> 0 -> field_ok g f -> field_ok g p ->
  exists (ft pt : R -> field R) (f1 p1 : field R) (e1 : eom R),
    (forall t, exists et, evolve g j (with_n f (map (Rmult t) (fl_n f)), with_n p (map (Rmult t) (fl_n p)), e) = Ok (ft t, pt t, et)) /\
    evolve g j (f, p, free_of e) = Ok (f1, p1, e1) /\
    forall i, (i < n)%nat ->
      nth i (fl_n (ft 0)) 0 = 0 /\ is_derive (fun t => nth i (fl_n (ft t)) 0) 0 (nth i (fl_n f1) 0) /\
      nth i (fl_n (pt 0)) 0 = 0 /\ is_derive (fun t => nth i (fl_n (pt t)) 0) 0 (nth i (fl_n p1) 0).
Proof.
  intros Oe Hk Of Op.
  assert (Es : forall k st, steps g k st = evolve g k st).
  { clear. induction k as [|k IH]; intros [[f p] e]; cbn; [reflexivity|]. destruct (time_step g e f p) as [[[? ?] ?]| | | |]; cbn; auto.
    destruct (shift _); cbn; auto. destruct (shift _); cbn; auto. }
  assert (Lf : length (fl_n f) = n) by apply Of. assert (Lp : length (fl_n p) = n) by apply Op.
  assert (Sc : forall q t, field_ok g q -> field_ok g (with_n q (map (Rmult t) (fl_n q)))).
  { intros q t (A1 & A2 & A3 & A4 & A5). unfold field_ok. cbn. rewrite map_length. auto. }
  destruct (steps_iter b h cl Rmin Rmax nx g Hg Hsh HL H8 H2 j (free_of e) f p (free_ok e Oe) Of Op) as (f1 & p1 & e1 & E1 & I1). rewrite Es in E1.
  set (run := fun t => evolve g j (with_n f (map (Rmult t) (fl_n f)), with_n p (map (Rmult t) (fl_n p)), e)).
  exists (fun t => match run t with Ok (a, _, _) => a | _ => f end), (fun t => match run t with Ok (_, a, _) => a | _ => f end), f1, p1, e1.
  assert (Run : forall t, exists a c et, run t = Ok (a, c, et) /\ (fl_n a, fl_n c) = Nat.iter j (advance g e) (map (Rmult t) (fl_n f), map (Rmult t) (fl_n p))).
  { intros t. destruct (steps_iter b h cl Rmin Rmax nx g Hg Hsh HL H8 H2 j e _ _ Oe (Sc f t Of) (Sc p t Op)) as (a & c & et & E & I). rewrite Es in E. exists a, c, et. split; [exact E|exact I]. }
  split; [intros t; destruct (Run t) as (a & c & et & E & _); exists et; rewrite E; exact E|]. split; [exact E1|].
  assert (C0 : forall v, length v = n -> curve0 n (fun t => map (Rmult t) v) v).
  { intros v Lv. split; [intros; now rewrite map_length|]. split; auto. intros i Hi.
    assert (E : forall t, nth i (map (Rmult t) v) 0 = t * nth i v 0) by (intros t; rewrite <- (map_nth (Rmult t)), Rmult_0_r; reflexivity).
    rewrite E. split; [ring|]. apply (is_derive_ext (fun t => t * nth i v 0)); [intros; now rewrite E|]. auto_derive; auto. ring. }
  destruct (curve_iter e j Oe Hk (fun t => (map (Rmult t) (fl_n f), map (Rmult t) (fl_n p))) (fl_n f, fl_n p)) as [(_ & _ & A) (_ & _ & B)]; [split; cbn [fst snd]; auto|].
  rewrite <- I1 in A, B. cbn [fst snd] in A, B. intros i Hi. destruct (A i Hi) as [A1 A2], (B i Hi) as [B1 B2].
  assert (G : forall t, fl_n (match run t with Ok (a, _, _) => a | _ => f end) = fst (Nat.iter j (advance g e) (map (Rmult t) (fl_n f), map (Rmult t) (fl_n p))) /\
     fl_n (match run t with Ok (_, a, _) => a | _ => f end) = snd (Nat.iter j (advance g e) (map (Rmult t) (fl_n f), map (Rmult t) (fl_n p)))).
  { intros t. destruct (Run t) as (a & c & et & -> & I). rewrite <- I. auto. }
  destruct (G 0) as [G1 G2]. rewrite G1, G2. split; [exact A1|]. split; [|split; [exact B1|]].
  - eapply is_derive_ext; [|exact A2]. intros t. cbv beta. now destruct (G t) as [-> _].
  - eapply is_derive_ext; [|exact B2]. intros t. cbv beta. now destruct (G t) as [_ ->].
Qed.
End G.
