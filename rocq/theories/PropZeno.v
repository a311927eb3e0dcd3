(** * Property C77: the filter is applied once per step whatever the step length, so refining the step erases
    the angular structure. *)
From Coq Require Import Reals Lra.
From Coquelicot Require Import Coquelicot.
From Verif Require Import Base BaseLemmas ForList Arith MFd MCheb MSphere MGrid MParams MField MEom
  Spec SphereSpec GridSpec EomSpec RkSpec SymSpec OrderSpec ZenoSpec PSum PGrid PTables PMake PSphere PSphere2 PSphereR PGridOp
  PFdR PropFd2 PropSphere PropTables PropGridOp PropRad PropGridFilter PConc PEom PEomOk PRk PEomR PropRk PDriver PropDriver PLinear PropSym PJet PJet2 PLinOde PZeno PropOrder.
Local Open Scope R_scope.

Lemma linfun_bound n L : linfun n L -> exists C, 0 <= C /\ forall v w B, length v = n -> length w = n -> 0 <= B ->
  (forall i, (i < n)%nat -> Rabs (nth i v 0 - nth i w 0) <= B) -> Rabs (L v - L w) <= C * B.
Proof.
  intros HL. destruct (fin_bound n (fun j => L (unitv n j))) as (D & HD & H). exists (INR n * D). split; [apply Rmult_le_pos; auto; apply pos_INR|].
  intros v w B Lv Lw HB Hvw. replace (L v - L w) with (1 * L v + (-1) * L w) by ring. rewrite <- HL by auto.
  rewrite (linfun_sum n) by (auto; now apply lincomb_length). rewrite Rmult_assoc. apply psum_abs; [now apply Rmult_le_pos|].
  intros j Hj. rewrite Rabs_mult, (nth_lincomb _ _ _ _ _ n) by auto. apply Rmult_le_compat; try apply Rabs_pos; auto.
  replace (1 * nth j v 0 + -1 * nth j w 0) with (nth j v 0 - nth j w 0) by ring. auto.
Qed.
(** a real-linear functional of complex coefficients is bounded by the coefficients *)
Definition cunit (n j : nat) (z : R * R) : list (R * R) := map (fun i => if Nat.eqb i j then z else (0, 0)) (seq 0 n).
Lemma cunit_length n j z : length (cunit n j z) = n.
Proof. unfold cunit. now rewrite map_length, seq_length. Qed.
Lemma clinfun_bound n (L : list (R * R) -> R) : (forall a v c w, length v = n -> length w = n -> L (clincomb a v c w) = a * L v + c * L w) ->
  exists C, 0 <= C /\ forall y A, length y = n -> 0 <= A -> (forall j, (j < n)%nat -> Rabs (fst (nth j y (0, 0))) <= A /\ Rabs (snd (nth j y (0, 0))) <= A) -> Rabs (L y) <= C * A.
Proof.
  intros HL. destruct (fin_bound n (fun j => L (cunit n j (1, 0)))) as (D1 & HD1 & H1). destruct (fin_bound n (fun j => L (cunit n j (0, 1)))) as (D2 & HD2 & H2).
  exists (INR n * (D1 + D2)). split; [apply Rmult_le_pos; [apply pos_INR|lra]|]. intros y A Ly HA HY.
  assert (Nu : forall j z i, (i < n)%nat -> nth i (cunit n j z) (0, 0) = if Nat.eqb i j then z else (0, 0)) by (intros; unfold cunit; now rewrite nth_map_seq).
  set (cut := fun m => map (fun i => if (i <? m)%nat then nth i y (0, 0) else (0, 0)) (seq 0 n)).
  assert (Lc : forall m, length (cut m) = n) by (intros; unfold cut; now rewrite map_length, seq_length).
  assert (Nc : forall m i, (i < n)%nat -> nth i (cut m) (0, 0) = if (i <? m)%nat then nth i y (0, 0) else (0, 0)) by (intros; unfold cut; now rewrite nth_map_seq).
  assert (CE : forall a v c w o, length v = n -> length w = n -> length o = n -> (forall i, (i < n)%nat -> nth i o (0, 0) = (a * fst (nth i v (0, 0)) + c * fst (nth i w (0, 0)), a * snd (nth i v (0, 0)) + c * snd (nth i w (0, 0)))) -> o = clincomb a v c w).
  { intros a v c w o Lv Lw Lo H. apply (nth_ext _ _ (0, 0) (0, 0)); [now rewrite (clincomb_length _ _ _ _ n)|]. rewrite Lo. intros i Hi. rewrite (nth_clincomb _ _ _ _ _ n) by auto. auto. }
  assert (X : forall m, (m <= n)%nat -> Rabs (L (cut m)) <= INR m * ((D1 + D2) * A)).
  { induction m as [|m IH]; intros Hm.
    - rewrite (CE 0 (cut 0%nat) 0 (cut 0%nat) (cut 0%nat)), HL by (auto; intros i Hi; rewrite !Nc by auto; cbn; apply (f_equal2 (@pair R R)); ring).
      replace (0 * L (cut 0%nat) + 0 * L (cut 0%nat)) with 0 by ring. rewrite Rabs_R0. cbn. lra.
    - set (x := fst (nth m y (0, 0))). set (q := snd (nth m y (0, 0))).
      assert (E : cut (S m) = clincomb 1 (clincomb 1 (cut m) x (cunit n m (1, 0))) q (cunit n m (0, 1))).
      { apply CE; auto; [apply clincomb_length; auto; apply cunit_length|apply cunit_length|]. intros i Hi. rewrite (nth_clincomb _ _ _ _ _ n) by (auto; apply cunit_length). rewrite !Nu, !Nc by auto.
        destruct (Nat.eqb_spec i m) as [->|Hn].
        - destruct (Nat.ltb_spec m (S m)); [|lia]. destruct (Nat.ltb_spec m m); [lia|]. unfold x, q. destruct (nth m y (0, 0)). cbn [fst snd]. apply (f_equal2 (@pair R R)); ring.
        - destruct (Nat.ltb_spec i (S m)), (Nat.ltb_spec i m); try lia; destruct (nth i y (0, 0)); cbn [fst snd]; apply (f_equal2 (@pair R R)); ring. }
      rewrite E, !HL by (auto; try apply cunit_length; apply clincomb_length; auto; apply cunit_length).
      destruct (HY m ltac:(lia)) as [A1 A2]. fold x in A1. fold q in A2. specialize (H1 m ltac:(lia)). specialize (H2 m ltac:(lia)). cbv beta in H1, H2. specialize (IH ltac:(lia)). rewrite S_INR.
      assert (T1 : Rabs (x * L (cunit n m (1, 0))) <= A * D1) by (rewrite Rabs_mult; apply Rmult_le_compat; auto; apply Rabs_pos).
      assert (T2 : Rabs (q * L (cunit n m (0, 1))) <= A * D2) by (rewrite Rabs_mult; apply Rmult_le_compat; auto; apply Rabs_pos).
      rewrite !Rmult_1_l. eapply Rle_trans; [apply Rabs_triang|]. pose proof (Rabs_triang (L (cut m)) (x * L (cunit n m (1, 0)))). lra. }
  specialize (X n ltac:(lia)). assert (E : cut n = y). { apply (nth_ext _ _ (0, 0) (0, 0)); [now rewrite Lc|]. rewrite Lc. intros i Hi. rewrite Nc by auto. destruct (Nat.ltb_spec i n); [auto|lia]. }
  rewrite E in X. lra.
Qed.

Section G.
Variables (b : build) (h : sht R) (P : profiles) (cl Rmin Rmax : R) (nx : nat) (g : grid R).
Hypothesis Hg : grid_of b h cl Rmin Rmax nx g.
Hypothesis Hlaw : lawful b h P.
Hypothesis HL : (Z.of_nat (s_lmax h) < 2 ^ 31)%Z.
Hypothesis H8 : (use_cheb b = false -> 8 <= nx)%nat.
Hypothesis H2 : (use_cheb b = true -> 2 <= nx)%nat.
Hypothesis Hln : linear_sht h.
Local Notation n := (g_n3 g).
Local Notation N := (s_nlat h * s_nphi h)%nat.
Local Notation L := (s_lmax h).
Local Notation M := (s_mmax h).
Local Notation nlm := (nlm_calc (s_lmax h) (s_mmax h)).
Let Hsh : shapes h := lw_shapes b h P Hlaw.

(** factor with which the filter multiplies the harmonic (l,m) *)
Definition dfac (l m : nat) : R := if (l <? L)%nat && (m <? M)%nat then damp L l * damp L m else 1.
(** analysis of filtered data *)
Lemma filter_spec v o : length v = N -> sp_filter b (g_sphere g) v = Ok o -> length o = N /\
  (exists y, length y = nlm /\ o = s_sy h y /\ forall l m, (l <= L)%nat -> (m <= l)%nat -> (m <= M)%nat ->
     nth (LM L l m) y (0, 0) = (dfac l m * fst (nth (LM L l m) (s_an h v) (0, 0)), dfac l m * snd (nth (LM L l m) (s_an h v) (0, 0)))) /\
  forall l m, (l <= L)%nat -> (m <= l)%nat -> (m <= M)%nat ->
    nth (LM L l m) (s_an h o) (0, 0) = (dfac l m * fst (nth (LM L l m) (s_an h v) (0, 0)), if Nat.eqb m 0 then 0 else dfac l m * snd (nth (LM L l m) (s_an h v) (0, 0))).
Proof.
  intros Lv E. destruct (gof_sizes b h cl Rmin Rmax nx g Hg) as (_ & _ & _ & _ & _ & Hs & _).
  destruct (filter_ok b h (g_sphere g) Hsh Hs v Lv) as (y & E1 & Ly & Lo & Hy). rewrite E1 in E. injection E as <-. split; auto.
  assert (HY : forall l m, (l <= L)%nat -> (m <= l)%nat -> (m <= M)%nat ->
     nth (LM L l m) y (0, 0) = (dfac l m * fst (nth (LM L l m) (s_an h v) (0, 0)), dfac l m * snd (nth (LM L l m) (s_an h v) (0, 0)))).
  { intros l m Hl Hm HM. specialize (Hy l m Hl Hm HM). change (@c0 R _) with (0, 0) in Hy. rewrite Hy. unfold dfac. destruct (_ && _).
    - unfold cmulr, lpf, damp. cbn [R_arith fmul fopp fadd fofZ fexp fdiv fpow fst snd]. rewrite !fnat_INR. apply (f_equal2 (@pair R R)); ring.
    - destruct (nth (LM L l m) (s_an h v) (0, 0)). cbn [fst snd]. apply (f_equal2 (@pair R R)); ring. }
  split; [exists y; auto|]. intros l m Hl Hm HM.
  set (a := fun l m => nth (LM L l m) y (0, 0)). set (a' := fun l m : nat => (fst (a l m), if Nat.eqb m 0 then 0 else snd (a l m))).
  destruct (pack h a' (sh_mmax h Hsh)) as (c & Hc).
  assert (S1 : sampled b h (real_field P L M a) (s_sy h y)) by (apply (lw_syn b h P Hlaw); split; auto).
  assert (S2 : sampled b h (real_field P L M a') (s_sy h c)) by (now apply (lw_syn b h P Hlaw)).
  assert (EQ : s_sy h y = s_sy h c).
  { apply (sampled_unique b h (real_field P L M a)); auto. eapply sampled_ext; [|exact S2]. intros th ph. apply Rsum_ext. intros l' _. apply Rsum_ext. intros m' _.
    unfold mode, a'. destruct (Nat.eqb m' 0); reflexivity. }
  rewrite EQ, (lw_ana b h P Hlaw c a' Hc) by (intros q; reflexivity). destruct Hc as [_ Hc]. rewrite Hc by auto. unfold a'. unfold a. rewrite (HY l m Hl Hm HM). reflexivity.
Qed.
Lemma dfac_range l m : (1 <= L)%nat -> 0 <= dfac l m <= 1.
Proof.
  intros H1. unfold dfac. destruct (_ && _); [|lra]. destruct (C36_factors L H1) as (_ & F & _). pose proof (F l). pose proof (F m). nra.
Qed.
Lemma dfac_lt l m : (1 <= l < L)%nat -> (m < M)%nat -> dfac l m < 1.
Proof.
  intros Hl Hm. unfold dfac. destruct (Nat.ltb_spec l L); [|lia]. destruct (Nat.ltb_spec m M); [|lia]. cbn [andb].
  destruct (C36_factors L ltac:(lia)) as (_ & F & _). pose proof (F m). assert (damp L l < 1); [|pose proof (F l); nra].
  unfold damp. rewrite <- exp_0. apply exp_increasing. assert (0 < INR l / INR L) by (apply Rdiv_lt_0_compat; apply lt_0_INR; lia).
  pose proof (pow_lt (INR l / INR L) 16 H3). lra.
Qed.

(** the functionals: one harmonic on one shell of one of the two arrays *)
Definition hidx := (bool * bool * (nat * (nat * nat)))%type.
Definition HQ (s : hidx) (u : state R) : R := let '(w, im, (ix, (l, m))) := s in
  let z := harmonic h g (if w then snd u else fst u) ix l m in if im then snd z else fst z.
Definition HI : list hidx := list_prod (list_prod [false; true] [false; true])
  (list_prod (seq 0 (g_nx g)) (filter (fun lm => (snd lm <=? fst lm)%nat) (list_prod (seq 0 (L + 1)) (seq 0 (M + 1))))).
Definition hd (s : hidx) : R := let '(_, _, (_, (l, m))) := s in dfac l m.
Lemma in_HI w im ix l m : In (w, im, (ix, (l, m))) HI <-> (ix < g_nx g)%nat /\ (l <= L)%nat /\ (m <= l)%nat /\ (m <= M)%nat.
Proof.
  unfold HI. rewrite in_prod_iff, in_prod_iff, in_prod_iff, filter_In, in_prod_iff, !in_seq. cbn [fst snd]. rewrite Nat.leb_le.
  split; [intros (_ & A & (B & C) & D); lia|]. intros (A & B & C & D). split; [destruct w, im; cbn; auto 10|]. lia.
Qed.
Lemma harm_lin ix l m (im : bool) : (ix < g_nx g)%nat -> (l <= L)%nat -> (m <= l)%nat -> (m <= M)%nat ->
  linfun n (fun v => if im then snd (harmonic h g v ix l m) else fst (harmonic h g v ix l m)).
Proof.
  intros Hx Hl Hm HM a v c w Lv Lw. unfold harmonic. rewrite (shell_lin b h cl Rmin Rmax nx g Hg H8 H2) by auto.
  destruct (gof_sizes b h cl Rmin Rmax nx g Hg) as (Eb & En & _ & El & Ep & _).
  assert (LS : forall v, length v = n -> length (shell g v ix) = s_nspat h) by (intros; apply (nspatN h Hsh); rewrite shell_length; auto; congruence).
  rewrite (ln_an h Hln) by auto. rewrite (nth_clincomb _ _ _ _ _ nlm); [|apply (sh_an h Hsh); auto..|apply LM_lt; auto; apply (sh_mmax h Hsh)].
  destruct im; reflexivity.
Qed.
Local Notation Phi := (fun u : state R => (filt_of g (fst u), filt_of g (snd u))).
Lemma filt_shell v ix : length v = n -> (ix < g_nx g)%nat -> length (filt_of g v) = n /\ sp_filter b (g_sphere g) (shell g v ix) = Ok (shell g (filt_of g v) ix).
Proof.
  intros Lv Hx. assert (H1 : (1 <= nx)%nat). { destruct (use_cheb b) eqn:E; [specialize (H2 eq_refl)|specialize (H8 eq_refl)]; lia. }
  destruct (C26_filter_is_angular_only b h cl Rmin Rmax nx g Hg v Hsh H1 Lv) as (r & E & Lr & H). unfold filt_of. rewrite E. auto.
Qed.
(** filtered data are bounded by the coefficients *)
Lemma phi_bound : exists Cf, 0 <= Cf /\ forall v A, (1 <= L)%nat -> length v = n -> 0 <= A ->
  (forall ix l m, (ix < g_nx g)%nat -> (l <= L)%nat -> (m <= l)%nat -> (m <= M)%nat -> Rabs (fst (harmonic h g v ix l m)) <= A /\ Rabs (snd (harmonic h g v ix l m)) <= A) ->
  forall i, (i < n)%nat -> Rabs (nth i (filt_of g v) 0) <= Cf * A.
Proof.
  destruct (gof_sizes b h cl Rmin Rmax nx g Hg) as (Eb & En & _ & El & Ep & _).
  assert (X : forall q, (q <= N)%nat -> exists C, 0 <= C /\ forall k, (k < q)%nat -> forall y A, length y = nlm -> 0 <= A -> (forall j, (j < nlm)%nat -> Rabs (fst (nth j y (0, 0))) <= A /\ Rabs (snd (nth j y (0, 0))) <= A) -> Rabs (nth k (s_sy h y) 0) <= C * A).
  { induction q as [|q IH]; intros Hq; [exists 0; split; [lra|intros; lia]|]. destruct IH as (C & HC & H); [lia|].
    destruct (clinfun_bound nlm (fun y => nth q (s_sy h y) 0)) as (D & HD & H').
    { intros a v c w Lv Lw. rewrite (ln_sy h Hln) by auto. rewrite (nth_lincomb _ _ _ _ _ N); [reflexivity|..|lia]; rewrite (sh_sy h Hsh) by auto; apply (sh_nspat h Hsh). }
    exists (C + D). split; [lra|]. intros k Hk y A Ly HA Hy. destruct (Nat.eq_dec k q) as [->|]; [specialize (H' y A Ly HA Hy); nra|]. specialize (H k ltac:(lia) y A Ly HA Hy). nra. }
  destruct (X N ltac:(lia)) as (C & HC & H). exists C. split; auto. intros v A H1 Lv HA Hv i Hi.
  assert (NE : (g_nlat g * g_nphi g)%nat = N) by congruence.
  assert (NP : (0 < N)%nat) by (unfold g_n3 in Hi; rewrite El, Ep in Hi; nia).
  set (ix := (i / N)%nat). set (k := (i mod N)%nat). assert (Ei : i = (N * ix + k)%nat) by (apply Nat.div_mod; lia).
  assert (Hk : (k < N)%nat) by (apply Nat.mod_upper_bound; lia).
  assert (Hix : (ix < g_nx g)%nat). { apply Nat.div_lt_upper_bound; [lia|]. unfold g_n3 in Hi. rewrite El, Ep in Hi. nia. }
  clearbody ix k. subst i. rewrite <- NE, <- (PGridOp.nth_shell g (filt_of g v) ix k 0) by now rewrite NE.
  destruct (filt_shell v ix Lv Hix) as [Lf Ef].
  destruct (filter_spec (shell g v ix) _ ltac:(rewrite shell_length; auto; congruence) Ef) as (_ & (y & Ly & -> & Hy) & _).
  apply (H k Hk y A Ly HA). intros j Hj. destruct (LM_surj L M j (sh_mmax h Hsh) Hj) as (l & m & Hl & Hm & HM & <-). rewrite Hy by auto. cbn [fst snd].
  destruct (Hv ix l m Hix Hl Hm HM) as [B1 B2]. unfold harmonic in B1, B2. pose proof (dfac_range l m H1) as D.
  rewrite !Rabs_mult, (Rabs_pos_eq (dfac l m)) by lra. pose proof (Rabs_pos (fst (nth (LM L l m) (s_an h (shell g v ix)) (0, 0)))). pose proof (Rabs_pos (snd (nth (LM L l m) (s_an h (shell g v ix)) (0, 0)))). split; nra.
Qed.

Opaque advance.
(** ** C77.  Constant k and quadratic V.  Evolve the same data to the same final time T with N steps of length T/N.
    As N grows, every harmonic with 1 <= l < nl, m < nm tends to zero on every shell, in the field and in its velocity. *)
Theorem C77_small_steps_erase_angular_structure e (f p : field R) T ix l m : eom_ok g e -> free_eqs e -> field_ok g f -> field_ok g p -> 0 <= T ->
  (ix < g_nx g)%nat -> (1 <= l < L)%nat -> (m <= l)%nat -> (m < M)%nat ->
  exists fN pN : nat -> list R,
    (forall k, exists f' p' e', steps g k (f, p, with_dt e (T / INR k)) = Ok (f', p', e') /\ fl_n f' = fN k /\ fl_n p' = pN k) /\
    is_lim_seq (fun k => fst (harmonic h g (fN k) ix l m)) 0 /\ is_lim_seq (fun k => snd (harmonic h g (fN k) ix l m)) 0 /\
    is_lim_seq (fun k => fst (harmonic h g (pN k) ix l m)) 0 /\ is_lim_seq (fun k => snd (harmonic h g (pN k) ix l m)) 0.
Proof.
  intros Oe Fe Of Op HT Hx Hl Hm HM. assert (L1 : (1 <= L)%nat) by lia.
  set (u := (fl_n f, fl_n p) : state R). assert (Su : szd n u) by (destruct Of as (_ & ? & _), Op as (_ & ? & _); split; auto).
  assert (SF : forall v, szd n v -> szd n (rhs_of g e v)) by (intros v Sv; now apply (rhs_sized b h cl Rmin Rmax nx g Hg Hsh HL H8 H2)).
  assert (SP : forall v, szd n v -> szd n (Phi v)) by (intros v Sv; now apply (filt_sized b h cl Rmin Rmax nx g Hg Hsh H8 H2)).
  destruct (rhs_matrix b h cl Rmin Rmax nx g Hg Hsh HL H8 H2 Hln e Oe Fe) as (Mx & HMx).
  destruct (fin_bound2 (n + n) Mx (n + n)) as (K0 & HK0 & HB).
  destruct phi_bound as (Cf & HCf & Hphi).
  assert (Q0 : exists Cq, 0 <= Cq /\ forall s, In s HI -> forall u w B, szd n u -> szd n w -> 0 <= B -> (forall i, Rabs (cmp n u i - cmp n w i) <= B) -> Rabs (HQ s u - HQ s w) <= Cq * B).
  { assert (X : forall Js, (forall s, In s Js -> In s HI) -> exists Cq, 0 <= Cq /\ forall s, In s Js -> forall u w B, szd n u -> szd n w -> 0 <= B -> (forall i, Rabs (cmp n u i - cmp n w i) <= B) -> Rabs (HQ s u - HQ s w) <= Cq * B).
    { induction Js as [|s Js IH]; intros HJ; [exists 0; split; [lra|intros ? []]|]. destruct IH as (C & HC & H); [intros; apply HJ; right; auto|].
      pose proof (HJ s ltac:(left; auto)) as Hs. destruct s as [[w im] [jx [l' m']]]. apply in_HI in Hs. destruct Hs as (A1 & A2 & A3 & A4).
      destruct (linfun_bound n _ (harm_lin jx l' m' im A1 A2 A3 A4)) as (D & HD & H'). exists (C + D). split; [lra|]. intros s [<-|Hs] a c B Sa Sc HB' Hac.
      - apply Rle_trans with (D * B); [|nra]. unfold HQ. apply H'; [destruct w; apply Sa|destruct w; apply Sc|auto|].
        intros i Hi. destruct w; [rewrite <- !(cmp_snd n)|rewrite <- !(cmp_fst n) by auto]; apply Hac.
      - specialize (H s Hs a c B Sa Sc HB' Hac). nra. }
    apply X. auto. }
  destruct Q0 as (Cq & HCq & Hq).
  set (adv' := adv (rhs_of g e) Phi).
  assert (Z : forall s, In s HI -> hd s < 1 -> is_lim_seq (fun k => HQ s (Nat.iter k (adv' (T / INR k)) u)) 0).
  { intros s Hs Hs1. apply (zeno n (rhs_of g e) Phi hidx HI HQ hd (INR (n + n) * K0) Cq Cf); auto.
    - apply Rmult_le_pos; auto. apply pos_INR.
    - intros a c B Sa Sc Hac s' Hs'. apply Hq; auto. eapply Rle_trans; [apply Rabs_pos|apply (Hac 0%nat)].
    - intros a A Sa HA. assert (A0 : 0 <= A) by (eapply Rle_trans; [apply Rabs_pos|apply (HA s Hs)]).
      intros i. destruct Sa as [La Lb].
      destruct (Nat.lt_ge_cases i n) as [Hi|Hi]; [rewrite cmp_fst by auto; cbn [fst]; apply Hphi; auto; intros jx l' m' A1 A2 A3 A4; assert (V : forall im, In (false, im, (jx, (l', m'))) HI) by (intros; now apply in_HI); split; [apply (HA _ (V false))|apply (HA _ (V true))]|].
      destruct (Nat.lt_ge_cases i (n + n)) as [Hi'|Hi'].
      + replace i with (n + (i - n))%nat by lia. rewrite cmp_snd. cbn [snd]. apply Hphi; auto; [|lia]. intros jx l' m' A1 A2 A3 A4. assert (V : forall im, In (true, im, (jx, (l', m'))) HI) by (intros; now apply in_HI). split; [apply (HA _ (V false))|apply (HA _ (V true))].
      + rewrite cmp_out; [rewrite Rabs_R0; now apply Rmult_le_pos|apply SP; split; auto|auto].
    - intros a s' [La Lb] Hs'. destruct s' as [[w im] [jx [l' m']]]. apply in_HI in Hs'. destruct Hs' as (A1 & A2 & A3 & A4). unfold HQ, hd, harmonic.
      assert (Lw : length (if w then snd a else fst a) = n) by (destruct w; auto).
      replace (if w then snd (Phi a) else fst (Phi a)) with (filt_of g (if w then snd a else fst a)) by (destruct w; reflexivity).
      destruct (filt_shell _ jx Lw A1) as [_ Ef]. destruct (gof_sizes b h cl Rmin Rmax nx g Hg) as (_ & _ & _ & El & Ep & _).
      destruct (filter_spec (shell g (if w then snd a else fst a) jx) _ ltac:(rewrite shell_length; auto; congruence) Ef) as (_ & _ & HV). rewrite HV by auto. cbn [fst snd].
      pose proof (dfac_range l' m' L1). destruct im; [destruct (Nat.eqb m' 0); [rewrite Rabs_R0; apply Rmult_le_pos; [lra|apply Rabs_pos]|]|]; rewrite Rabs_mult, (Rabs_pos_eq (dfac l' m')) by lra; lra.
    - intros s' Hs'. destruct s' as [[w im] [jx [l' m']]]. now apply dfac_range.
    - intros a B Sa Ha i. destruct (Nat.lt_ge_cases i (n + n)) as [Hi|Hi].
      + rewrite HMx by auto. rewrite Rmult_assoc. pose proof (le_nonneg n a B Ha). apply psum_abs; [now apply Rmult_le_pos|]. intros j Hj. rewrite Rabs_mult. apply Rmult_le_compat; try apply Rabs_pos; auto.
      + rewrite cmp_out by auto. rewrite Rabs_R0. pose proof (le_nonneg n a B Ha). apply Rmult_le_pos; auto. apply Rmult_le_pos; auto. apply pos_INR.
    - assert (Y : forall Js, exists A, 0 <= A /\ forall s, In s Js -> Rabs (HQ s u) <= A).
      { induction Js as [|q Js (A & HA & H)]; [exists 0; split; [lra|intros ? []]|]. exists (A + Rabs (HQ q u)). pose proof (Rabs_pos (HQ q u)). split; [lra|]. intros r [<-|Hr]; [lra|]. specialize (H r Hr). lra. }
      apply Y. }
  exists (fun k => fst (Nat.iter k (adv' (T / INR k)) u)), (fun k => snd (Nat.iter k (adv' (T / INR k)) u)). split.
  - intros k. assert (Oe' : eom_ok g (with_dt e (T / INR k))) by exact Oe.
    destruct (steps_iter b h cl Rmin Rmax nx g Hg Hsh HL H8 H2 k _ f p Oe' Of Op) as (f' & p' & e' & E & I). exists f', p', e'. split; auto.
    fold u in I. rewrite (iter_ext (szd n) _ (adv' (T / INR k))) in I; auto.
    + rewrite <- I. auto.
    + intros a Sa. unfold adv', adv. Transparent advance. unfold advance. Opaque advance. cbn [with_dt e_dt]. destruct (SP a Sa) as [B1 B2]. cbn [fst snd] in B1, B2. apply rk4_ext_len with (n := n); auto.
      intros c C1 C2. rewrite (rhs_dt b h cl Rmin Rmax nx g Hg Hsh HL H8 H2) by (auto; split; auto). split; auto. apply SF. split; auto.
    + intros a Sa. unfold adv', adv, rk4. cbv zeta. repeat first [apply szd_axpy2|apply SF]; auto; now apply SP.
  - assert (W : forall w im, In (w, im, (ix, (l, m))) HI) by (intros; apply in_HI; lia). assert (D : dfac l m < 1) by now apply dfac_lt.
    split; [exact (Z _ (W false false) D)|]. split; [exact (Z _ (W false true) D)|]. split; [exact (Z _ (W true false) D)|exact (Z _ (W true true) D)].
Qed.

Lemma psum_lim k (a : nat -> nat -> R) (c d : nat -> R) : (forall j, (j < k)%nat -> is_lim_seq (fun q => a q j) (c j)) ->
  is_lim_seq (fun q => psum k (fun j => d j * a q j) 1) (psum k (fun j => d j * c j) 1).
Proof.
  induction k as [|k IH]; intros H; [apply is_lim_seq_const|]. cbn [psum]. rewrite pow1, Rmult_1_r. apply (is_lim_seq_ext (fun q => psum k (fun j => d j * a q j) 1 + d k * a q k)); [intros; now rewrite Rmult_1_r|]. apply (is_lim_seq_plus' (fun q => psum k (fun j => d j * a q j) 1) (fun q => d k * a q k)); [apply IH; intros; apply H; lia|].
  apply (is_lim_seq_scal_l (fun q => a q k) (d k) (c k)). apply H. lia.
Qed.
(** the exact solution keeps the harmonic it starts with for some time *)
Lemma harm_persists (Lf : list R -> R) (z : R -> state R) : linfun n Lf -> (forall t, length (fst (z t)) = n) ->
  (forall i, (i < n)%nat -> ex_derive (fun t => nth i (fst (z t)) 0) 0) -> Lf (fst (z 0)) <> 0 ->
  exists T0, 0 < T0 /\ forall T, 0 < T < T0 -> Lf (fst (z T)) <> 0.
Proof.
  intros Hf Lz Dz N0. set (G := fun t => psum n (fun j => Lf (unitv n j) * nth j (fst (z t)) 0) 1).
  assert (EG : forall t, Lf (fst (z t)) = G t) by (intros t; now apply linfun_sum).
  assert (CG : continuous G 0).
  { unfold G. assert (X : forall k, (k <= n)%nat -> continuous (fun t => psum k (fun j => Lf (unitv n j) * nth j (fst (z t)) 0) 1) 0).
    { induction k as [|k IH]; intros Hk; [apply continuous_const|]. cbn [psum]. rewrite pow1. apply (continuous_ext (fun t => psum k (fun j => Lf (unitv n j) * nth j (fst (z t)) 0) 1 + Lf (unitv n k) * nth k (fst (z t)) 0)); [intros; now rewrite Rmult_1_r|]. apply (continuous_plus (fun t => psum k (fun j => Lf (unitv n j) * nth j (fst (z t)) 0) 1) (fun t => Lf (unitv n k) * nth k (fst (z t)) 0)); [apply IH; lia|].
      apply (continuous_mult (fun _ => Lf (unitv n k)) (fun t => nth k (fst (z t)) 0)); [apply continuous_const|]. apply (ex_derive_continuous (fun t => nth k (fst (z t)) 0)). apply Dz. lia. }
    apply X. lia. }
  rewrite EG in N0. assert (Ne : G 0 <> 0) by exact N0.
  assert (PG : 0 < Rabs (G 0)) by now apply Rabs_pos_lt. apply continuity_pt_filterlim in CG.
  destruct (CG (Rabs (G 0)) PG) as (dl & Hd & H). exists dl. split; [exact Hd|]. intros T HT Z. rewrite EG in Z.
  specialize (H T). cbn in H. unfold R_dist in H. assert (X : Rabs (G T - G 0) < Rabs (G 0)).
  { apply H. split; [split; [exact I|lra]|]. rewrite Rminus_0_r, Rabs_pos_eq; lra. }
  rewrite Z in X. replace (0 - G 0) with (- G 0) in X by ring. rewrite Rabs_Ropp in X. lra.
Qed.
(** ** C77, consequence: with the spatial grid held fixed, halving the time step does not converge to the solution of
    the equations being integrated, unless the data have no such harmonic. *)
Theorem C77_refining_the_step_does_not_converge e (f p : field R) rhs z ix l m : eom_ok g e -> free_eqs e -> field_ok g f -> field_ok g p ->
  computes_rhs g e rhs -> solves n rhs z 1 -> z 0 = (fl_n f, fl_n p) ->
  (ix < g_nx g)%nat -> (1 <= l < L)%nat -> (m <= l)%nat -> (m < M)%nat -> harmonic h g (fl_n f) ix l m <> (0, 0) ->
  exists T0, 0 < T0 /\ forall T, 0 < T < T0 -> forall fN : nat -> list R,
    (forall k, exists f' p' e', steps g k (f, p, with_dt e (T / INR k)) = Ok (f', p', e') /\ fl_n f' = fN k) ->
    ~ (forall i, (i < n)%nat -> is_lim_seq (fun k => nth i (fN k) 0) (nth i (fst (z T)) 0)).
Proof.
  intros Oe Fe Of Op Hr [Lz Dz] z0 Hx Hl Hm HM Hne.
  assert (K : exists im : bool, (if im then snd (harmonic h g (fl_n f) ix l m) else fst (harmonic h g (fl_n f) ix l m)) <> 0).
  { destruct (harmonic h g (fl_n f) ix l m) as [x y]. cbn [fst snd]. destruct (Req_dec x 0) as [->|]; [|now exists false]. exists true. intros ->. now apply Hne. }
  destruct K as (im & K). pose proof (harm_lin ix l m im Hx ltac:(lia) Hm ltac:(lia)) as Hf.
  set (Lf := fun v => if im then snd (harmonic h g v ix l m) else fst (harmonic h g v ix l m)) in *.
  destruct (harm_persists Lf z Hf) as (T0 & P0 & H0); [apply Lz|intros i Hi; exists (nth i (fst (rhs (z 0))) 0); exact (proj1 (Dz 0 i ltac:(lra) Hi))|rewrite z0; exact K|].
  exists T0. split; auto. intros T HT fN HN Hlim. apply (H0 T HT).
  destruct (C77_small_steps_erase_angular_structure e f p T ix l m Oe Fe Of Op ltac:(lra) Hx Hl Hm HM) as (fN' & pN & HN' & A1 & A2 & _).
  assert (EN : forall k, fN' k = fN k).
  { intros k. destruct (HN k) as (f1 & p1 & e1 & E1 & <-), (HN' k) as (f2 & p2 & e2 & E2 & <- & _). rewrite E1 in E2. now injection E2 as <- <- <-. }
  assert (LN : forall k, length (fN k) = n).
  { intros k. destruct (HN k) as (f1 & p1 & e1 & E1 & <-). assert (Oe' : eom_ok g (with_dt e (T / INR k))) by exact Oe.
    destruct (steps_iter b h cl Rmin Rmax nx g Hg Hsh HL H8 H2 k _ f p Oe' Of Op) as (f' & p' & e' & E & I). rewrite E1 in E. injection E as <- <- <-.
    assert (Sz : szd n (Nat.iter k (advance g (with_dt e (T / INR k))) (fl_n f, fl_n p))) by (apply (iter_sized b h cl Rmin Rmax nx g Hg Hsh HL H8 H2); auto; destruct Of as (_ & ? & _), Op as (_ & ? & _); split; auto).
    destruct Sz as [Sz _]. rewrite <- I in Sz. exact Sz. }
  assert (B1 : is_lim_seq (fun k => Lf (fN k)) 0).
  { apply (is_lim_seq_ext (fun k => Lf (fN' k))); [intros; now rewrite EN|]. unfold Lf. destruct im; auto. }
  assert (B2 : is_lim_seq (fun k => Lf (fN k)) (Lf (fst (z T)))).
  { rewrite (linfun_sum n Lf) by (auto; apply Lz). apply (is_lim_seq_ext (fun k => psum n (fun j => Lf (unitv n j) * nth j (fN k) 0) 1)); [intros k; symmetry; now apply linfun_sum|].
    apply (psum_lim n (fun k j => nth j (fN k) 0) (fun j => nth j (fst (z T)) 0)). exact Hlim. }
  apply is_lim_seq_unique in B1, B2. rewrite B1 in B2. now injection B2.
Qed.
End G.
