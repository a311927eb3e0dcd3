(** Under the size conditions established by the constructors, the evolution routines neither abort nor
    leave their arrays, and their results do not depend on the contents of buffers (any arithmetic). *)
From Verif Require Import Base BaseLemmas ForList Arith MFd MCheb MSphere MGrid MParams MField MEom
  SphereSpec GridSpec RkSpec PGrid PTables PMake PSphere PSphere2 PGridOp PropTables PropGridOp PConc PEom.
Local Open Scope nat_scope.

Section Lists.
Context {A : Type}.
Lemma list_ext (u v : list A) n : length u = n -> length v = n -> (forall i, i < n -> nth_error u i = nth_error v i) -> u = v.
Proof.
  intros Lu Lv H. revert v n Lu Lv H. induction u as [|x u IH]; intros [|y v] n Lu Lv H; cbn in *; subst; try discriminate; auto.
  f_equal.
  - specialize (H 0 ltac:(lia)). cbn in H. congruence.
  - apply (IH v (length u)); auto. intros i Hi. apply (H (S i)). lia.
Qed.
Lemma nth_error_ex (v : list A) i : i < length v -> exists x, nth_error v i = Some x.
Proof. intros H. destruct (nth_error v i) eqn:E; eauto. apply nth_error_None in E. lia. Qed.
End Lists.

Section Ok.
Context {F : Type} {AF : Arith F}.

Definition scr_ok (n : nat) (s : scratch F) : Prop :=
  length (s_dr_f s) = n /\ length (s_lap_f s) = n /\ length (s_dr_p s) = n /\ length (s_dr_dr_f s) = n /\
  length (s_dphi_f s) = n /\ length (s_dphi_dr_f s) = n /\ length (s_sphereX_f s) = n.
Definition eom_ok (g : grid F) (e : eom F) : Prop :=
  e_n e = g_n3 g /\ length (e_coef e) = g_n3 g /\ scr_ok (g_n3 g) (e_scr e).
Definition field_ok (g : grid F) (f : field F) : Prop :=
  fl_size f = g_n3 g /\ length (fl_n f) = g_n3 g /\ length (fl_l f) = g_n3 g /\ length (fl_np1 f) = g_n3 g /\ length (fl_k f) = g_n3 g.

Lemma Field_make_ok g name x : field_ok g (Field_make name (g_n3 g) x).
Proof. unfold field_ok, Field_make. cbn. rewrite !vec_length. auto. Qed.

(** ** elementwise loops *)
Lemma axpy_length (c : F) k u n : length k = n -> length u = n -> length (axpy c k u) = n.
Proof. intros. unfold axpy. rewrite map_length, combine_length. lia. Qed.
Lemma axpy_nth (c : F) k u i a b : nth_error u i = Some a -> nth_error k i = Some b -> nth_error (axpy c k u) i = Some (a + c * b)%f.
Proof.
  intros Hu Hk. unfold axpy. rewrite nth_error_map.
  assert (E : nth_error (combine u k) i = Some (a, b)).
  { revert k i Hu Hk. induction u as [|x u IH]; intros [|y k] [|i] Hu Hk; cbn in *; try discriminate; try congruence. apply IH; auto. }
  rewrite E. reflexivity.
Qed.
Lemma set_each_total n h (out : list F) : length out = n -> (forall i, i < n -> exists x, h i = Ok x) ->
  exists o, set_each n h out = Ok o /\ length o = n /\ forall i, i < n -> exists x, h i = Ok x /\ nth_error o i = Some x.
Proof.
  intros L H. unfold set_each.
  destruct (for_inv (fun _ o => length o = n) 0 n (fun i out => let! x := h i in out.[i <- x]) out) as (o & E & Lo); auto; [lia| |].
  - intros i o Hi Lo. destruct (H i) as (x & ->); [lia|]. cbn [bind]. rewrite vset_ok by lia. eexists. split; eauto. now rewrite upd_length.
  - exists o. split; auto. split; auto. intros i Hi. destruct (set_each_cells n h out o E) as (_ & A & _). auto.
Qed.
Lemma set_each_axpy n (nn : list F) c k out : length nn = n -> length k = n -> length out = n ->
  set_each n (axpy_at nn c k) out = Ok (axpy c k nn).
Proof.
  intros L1 L2 L3. destruct (set_each_total n (axpy_at nn c k) out L3) as (o & E & Lo & H).
  - intros i Hi. unfold axpy_at, vget. destruct (nth_error_ex nn i), (nth_error_ex k i); try lia. rewrite H, H0. cbn. eauto.
  - rewrite E. f_equal. apply (list_ext _ _ n); auto; [now apply axpy_length|]. intros i Hi.
    destruct (H i Hi) as (x & Ex & ->). apply axpy_cell in Ex. destruct Ex as (a & b & Ea & Eb & ->). symmetry. now apply axpy_nth.
Qed.
Lemma set_each_copy n (nn out : list F) : length nn = n -> length out = n -> set_each n (fun i => nn.[i]) out = Ok nn.
Proof.
  intros L1 L3. destruct (set_each_total n (fun i => nn.[i]) out L3) as (o & E & Lo & H).
  - intros i Hi. unfold vget. destruct (nth_error_ex nn i); try lia. rewrite H. eauto.
  - rewrite E. f_equal. apply (list_ext _ _ n); auto. intros i Hi. destruct (H i Hi) as (x & Ex & ->). apply vget_inv in Ex. auto.
Qed.
Lemma acc_each_axpy n (c : F) k x : length k = n -> length x = n -> acc_each n c k x = Ok (axpy c k x).
Proof.
  intros L1 L2. unfold acc_each.
  destruct (for_inv (fun _ (o : list F) => length o = n) 0 n (fun i x => let! y := x.[i] in let! ki := k.[i] in x.[i <- (y + c * ki)%f]) x) as (o & E & Lo); auto; [lia| |].
  - intros i o Hi Lo. unfold vget. destruct (nth_error_ex o i) as (a & Ea), (nth_error_ex k i) as (b & Eb); try lia. rewrite Ea, Eb. cbn [bind].
    rewrite vset_ok by lia. eexists. split; eauto. now rewrite upd_length.
  - rewrite E. f_equal. destruct (acc_each_cells n c k x o E) as (_ & A & _). apply (list_ext _ _ n); auto; [now apply axpy_length|]. intros i Hi.
    destruct (A i Hi) as (y & ki & E1 & E2 & ->). symmetry. now apply axpy_nth.
Qed.

Section G.
Variables (b : build) (h : sht F) (cl0 Rmin0 Rmax0 : F) (nx : nat) (g : grid F).
Hypothesis Hg : grid_of b h cl0 Rmin0 Rmax0 nx g.
Hypothesis Hsh : shapes h.
Hypothesis HL : (Z.of_nat (s_lmax h) < 2 ^ 31)%Z.
Hypothesis H8 : use_cheb b = false -> 8 <= nx.
Hypothesis H2 : use_cheb b = true -> 2 <= nx.

Lemma Eom_make_total (p : params F) : exists e, Eom_make g p = Ok e.
Proof.
  unfold Eom_make. rewrite for3_as_list.
  match goal with |- exists e, bind (for_list ?l ?bd ?s) _ = _ =>
    destruct (for_list_total (fun _ (c : list (coef F)) => length c = g_n3 g) l bd s) as (c & E & _) end.
  - apply vec_length.
  - intros pre [ix [ip it]] post s Hd Ls. cbn [fst snd].
    assert (Hin : In (ix, (ip, it)) (list_prod (seq 0 (g_nx g)) (list_prod (seq 0 (g_nphi g)) (seq 0 (g_nlat g))))).
    { rewrite Hd. apply in_app_iff. right. left. auto. }
    rewrite In_pts3 in Hin. cbn in Hin. destruct Hin as (Hx & Hp & Ht).
    destruct (gof_sizes b h cl0 Rmin0 Rmax0 nx g Hg) as (Eb & En & _ & El & Ep & _).
    destruct (C06_tables _ _ _ _ _ _ _ _ _ _ _ Hg ix it ip) as (R & th & _ & _ & E & _); try congruence.
    rewrite E. cbn [bind vget nth_error]. rewrite vset_ok.
    + eexists. split; eauto. now rewrite upd_length.
    + rewrite Ls. unfold indx_R_th_ph, g_n3. apply ix_R_th_ph_lt; auto.
  - rewrite E. cbn [bind]. eauto.
Qed.
Lemma Eom_make_ok (p : params F) e : Eom_make g p = Ok e -> eom_ok g e.
Proof.
  intros H. apply Eom_make_inv in H. destruct H as (cs & L & -> & _). unfold eom_ok, scr_ok. cbn. rewrite !vec_length. auto 10.
Qed.

Definition zero3 : list F := vec (g_n3 g) f0.
(** the seven derivative arrays as functions of the inputs *)
Definition dr_of (v : list F) : list F := match set_partial_r g v zero3 with Ok r => r | _ => [] end.
Definition drr_of (v : list F) : list F := match set_partial2_r g v zero3 with Ok r => r | _ => [] end.
Definition dphi_of (v : list F) : list F := match set_partial_phi g v zero3 with Ok r => r | _ => [] end.
Definition lap_of (v : list F) : list F := match set_spherical_lap g v zero3 with Ok r => r | _ => [] end.
Definition sX_of (v : list F) : list F := match set_sphereX g v zero3 with Ok r => r | _ => [] end.

Lemma ops_ok v dv : length v = g_n3 g -> length dv = g_n3 g ->
  set_partial_r g v dv = Ok (dr_of v) /\ set_partial2_r g v dv = Ok (drr_of v) /\ set_partial_phi g v dv = Ok (dphi_of v) /\
  set_spherical_lap g v dv = Ok (lap_of v) /\ set_sphereX g v dv = Ok (sX_of v) /\
  length (dr_of v) = g_n3 g /\ length (drr_of v) = g_n3 g /\ length (dphi_of v) = g_n3 g /\ length (lap_of v) = g_n3 g /\ length (sX_of v) = g_n3 g.
Proof.
  intros Lv Ld. assert (Lz : length zero3 = g_n3 g) by apply vec_length.
  destruct (C23_output_buffer_irrelevant b h cl0 Rmin0 Rmax0 nx g Hg v dv zero3 Hsh HL Lv Ld Lz) as [A B]. specialize (B H8 H2).
  rewrite (B (set_partial_r g)), (B (set_partial2_r g)), (A (set_partial_phi g)), (A (set_spherical_lap g)), (A (set_sphereX g)) by (cbn; auto).
  destruct (C23_angular b h cl0 Rmin0 Rmax0 nx g Hg v zero3 Hsh HL Lv Lz) as (x1 & x2 & x3 & E1 & E2 & E3 & L1 & L2 & L3 & _).
  destruct (C23_radial b h cl0 Rmin0 Rmax0 nx g Hg v zero3 H8 H2 Lv Lz) as (y1 & y2 & y3 & F1 & F2 & F3 & M1 & M2 & M3 & _).
  unfold dr_of, drr_of, dphi_of, lap_of, sX_of. rewrite E1, E2, E3, F2, F3. auto 12.
Qed.
Definition scr_of (f p : list F) : scratch F :=
  Scr (dr_of f) (lap_of f) (dr_of p) (drr_of f) (dphi_of f) (dr_of (dphi_of f)) (sX_of f).
Lemma k_sections_ok f p s : length f = g_n3 g -> length p = g_n3 g -> scr_ok (g_n3 g) s ->
  k_sections g f p s = Ok (scr_of f p) /\ scr_ok (g_n3 g) (scr_of f p).
Proof.
  intros Lf Lp (A1 & A2 & A3 & A4 & A5 & A6 & A7). unfold k_sections.
  destruct (ops_ok f (s_dr_f s) Lf A1) as (E1 & _ & _ & _ & _ & L1 & L2 & L3 & L4 & L5).
  destruct (ops_ok p (s_dr_p s) Lp A3) as (E2 & _ & _ & _ & _ & M1 & _).
  destruct (ops_ok f (s_dr_dr_f s) Lf A4) as (_ & E3 & _).
  destruct (ops_ok f (s_dphi_f s) Lf A5) as (_ & _ & E4 & _).
  destruct (ops_ok (dphi_of f) (s_dphi_dr_f s) L3 A6) as (E5 & _ & _ & _ & _ & N1 & _).
  destruct (ops_ok f (s_sphereX_f s) Lf A7) as (_ & _ & _ & _ & E6 & _).
  destruct (ops_ok f (s_lap_f s) Lf A2) as (_ & _ & _ & E7 & _).
  rewrite E1; cbn [bind]. rewrite E2; cbn [bind]. rewrite E3; cbn [bind]. rewrite E4; cbn [bind]. rewrite E5; cbn [bind].
  rewrite E6; cbn [bind]. rewrite E7; cbn [bind]. split; auto. unfold scr_ok, scr_of. cbn. auto 10.
Qed.

Lemma set_k_total e f p fk pk : eom_ok g e -> length f = g_n3 g -> length p = g_n3 g -> length fk = g_n3 g -> length pk = g_n3 g ->
  exists pk', set_k g e f p fk pk = Ok (p, pk', with_scr e (scr_of f p)) /\ length pk' = g_n3 g.
Proof.
  intros (En & Lc & Ls) Lf Lp Lfk Lpk.
  destruct (k_sections_ok f p (e_scr e) Lf Lp Ls) as [Ek Ls'].
  assert (T : exists fk' pk', set_k g e f p fk pk = Ok (fk', pk', with_scr e (scr_of f p)) /\ length fk' = g_n3 g /\ length pk' = g_n3 g).
  { unfold set_k. rewrite En, Lf, Lp, Lfk, Lpk, Nat.eqb_refl. rewrite !assert_true by reflexivity. cbn [bind]. rewrite Ek. cbn [bind].
    match goal with |- context [for_ 0 (g_n3 g) ?bd ?s] => destruct (for_inv (fun _ (st : list F * list F) => length (fst st) = g_n3 g /\ length (snd st) = g_n3 g) 0 (g_n3 g) bd s) as ([x y] & E & Lx & Ly) end.
    - lia.
    - auto.
    - intros i [u v] Hi [Lu Lv]. cbn [fst snd] in Lu, Lv. destruct Ls' as (K1 & K2 & K3 & K4 & K5 & K6 & K7).
      destruct (nth_error_ex f i) as (? & Q1); [lia|]. destruct (nth_error_ex p i) as (? & Q2); [lia|]. destruct (nth_error_ex (e_coef e) i) as (? & Q3); [lia|].
      destruct (nth_error_ex (s_dr_f (scr_of f p)) i) as (? & Q4); [lia|]. destruct (nth_error_ex (s_dr_p (scr_of f p)) i) as (? & Q5); [lia|].
      destruct (nth_error_ex (s_dr_dr_f (scr_of f p)) i) as (? & Q6); [lia|]. destruct (nth_error_ex (s_dphi_f (scr_of f p)) i) as (? & Q7); [lia|].
      destruct (nth_error_ex (s_dphi_dr_f (scr_of f p)) i) as (? & Q8); [lia|]. destruct (nth_error_ex (s_lap_f (scr_of f p)) i) as (? & Q9); [lia|].
      destruct (nth_error_ex (s_sphereX_f (scr_of f p)) i) as (? & Q10); [lia|].
      rewrite (vget_some _ _ _ Q1); cbn [bind]. rewrite (vget_some _ _ _ Q2); cbn [bind]. rewrite vset_ok by lia; cbn [bind].
      rewrite (vget_some _ _ _ Q3), (vget_some _ _ _ Q4), (vget_some _ _ _ Q5), (vget_some _ _ _ Q6), (vget_some _ _ _ Q7), (vget_some _ _ _ Q8), (vget_some _ _ _ Q9), (vget_some _ _ _ Q10); cbn [bind].
      rewrite vset_ok by lia; cbn [bind]. eexists. split; [reflexivity|]. cbn. now rewrite !upd_length.
    - rewrite E. cbn [bind]. exists x, y. split; [reflexivity|]. split; [exact Lx|exact Ly]. }
  destruct T as (fk' & pk' & E & L1 & L2). exists pk'. split; auto. rewrite E.
  destruct (set_k_inv _ _ _ _ _ _ _ _ _ E) as (s & _ & _ & _ & _ & _ & H). f_equal. f_equal. f_equal.
  apply (list_ext _ _ (g_n3 g)); auto. intros i Hi. rewrite <- En in Hi. destruct (H i Hi) as (fi & pi & c & d1 & d2 & d3 & d4 & d5 & d6 & d7 & A1 & A2 & A3 & A4 & A5 & A6 & A7 & A8 & A9 & A10 & A11 & A12).
  congruence.
Qed.

(** the second component as a function of the inputs *)
Definition prhs_of (e : eom F) (f p : list F) : list F := match set_k g e f p zero3 zero3 with Ok (_, pk, _) => pk | _ => [] end.
Lemma set_k_ok e s f p fk pk : eom_ok g e -> scr_ok (g_n3 g) s -> length f = g_n3 g -> length p = g_n3 g -> length fk = g_n3 g -> length pk = g_n3 g ->
  set_k g (with_scr e s) f p fk pk = Ok (p, prhs_of e f p, with_scr e (scr_of f p)) /\ length (prhs_of e f p) = g_n3 g.
Proof.
  intros Oe Os Lf Lp Lfk Lpk. assert (Lz : length zero3 = g_n3 g) by apply vec_length.
  assert (Oe' : eom_ok g (with_scr e s)) by (destruct Oe as (? & ? & _); unfold eom_ok; cbn; auto).
  destruct (set_k_total (with_scr e s) f p fk pk Oe' Lf Lp Lfk Lpk) as (a & Ea & La).
  destruct (set_k_total e f p zero3 zero3 Oe Lf Lp Lz Lz) as (c & Ec & Lc).
  assert (P : prhs_of e f p = c) by (unfold prhs_of; now rewrite Ec). rewrite P. split; auto. rewrite Ea. cbn [with_scr e_n e_dt e_km1 e_k0 e_k1 e_k2 e_v2 e_v3 e_v4 e_coef].
  f_equal. f_equal. f_equal. destruct Oe as (En & Lce & Lse).
  destruct (k_sections_ok f p s Lf Lp Os) as [Ek Ls']. destruct (k_sections_ok f p (e_scr e) Lf Lp Lse) as [Ek' _].
  destruct (set_k_inv _ _ _ _ _ _ _ _ _ Ea) as (s1 & S1 & _ & _ & _ & _ & I1).
  destruct (set_k_inv _ _ _ _ _ _ _ _ _ Ec) as (s2 & S2 & _ & _ & _ & _ & I2). cbn [with_scr e_scr] in S1.
  assert (s1 = scr_of f p) by congruence. assert (s2 = scr_of f p) by congruence. subst s1 s2.
  apply (list_ext _ _ (g_n3 g)); auto. intros i Hi. rewrite <- En in Hi.
  destruct (I1 i Hi) as (fi & pi & cc & d1 & d2 & d3 & d4 & d5 & d6 & d7 & A1 & A2 & A3 & A4 & A5 & A6 & A7 & A8 & A9 & A10 & A11 & A12).
  destruct (I2 i Hi) as (fi' & pi' & cc' & d1' & d2' & d3' & d4' & d5' & d6' & d7' & B1 & B2 & B3 & B4 & B5 & B6 & B7 & B8 & B9 & B10 & B11 & B12).
  cbn [with_scr e_coef] in A3. rewrite A12, B12. unfold p_rhs, kprime, vprime, inverse_k. cbn [with_scr e_n e_dt e_km1 e_k0 e_k1 e_k2 e_v2 e_v3 e_v4 e_coef].
  congruence.
Qed.

Lemma set_rho_total e f p rho : eom_ok g e -> length f = g_n3 g -> length p = g_n3 g -> length rho = g_n3 g ->
  exists rho' e', set_rho g e f p rho = Ok (rho', e') /\ length rho' = g_n3 g.
Proof.
  intros (En & Lc & (A1 & A2 & A3 & A4 & A5 & A6 & A7)) Lf Lp Lr.
  destruct (ops_ok f (s_dr_f (e_scr e)) Lf A1) as (E1 & _ & _ & _ & _ & L1 & L2 & L3 & L4 & L5).
  destruct (ops_ok f (s_dphi_f (e_scr e)) Lf A5) as (_ & _ & E4 & _).
  destruct (ops_ok f (s_sphereX_f (e_scr e)) Lf A7) as (_ & _ & _ & _ & E6 & _).
  unfold set_rho. rewrite En, Lf, Lp, Lr, Nat.eqb_refl. rewrite !assert_true by reflexivity. cbn [bind]. cbv zeta.
  rewrite E1; cbn [bind]. rewrite E4; cbn [bind]. rewrite E6; cbn [bind].
  match goal with |- context [for_ 0 (g_n3 g) ?bd ?s] => destruct (for_inv (fun _ (st : list F) => length st = g_n3 g) 0 (g_n3 g) bd s) as (x & E & Lx) end.
  - lia.
  - auto.
  - intros i u Hi Lu.
    destruct (nth_error_ex f i) as (? & Q1); [lia|]. destruct (nth_error_ex p i) as (? & Q2); [lia|]. destruct (nth_error_ex (e_coef e) i) as (? & Q3); [lia|].
    destruct (nth_error_ex (dr_of f) i) as (? & Q4); [lia|]. destruct (nth_error_ex (dphi_of f) i) as (? & Q5); [lia|]. destruct (nth_error_ex (sX_of f) i) as (? & Q6); [lia|].
    rewrite (vget_some _ _ _ Q1), (vget_some _ _ _ Q2), (vget_some _ _ _ Q3), (vget_some _ _ _ Q4), (vget_some _ _ _ Q5), (vget_some _ _ _ Q6); cbn [bind].
    rewrite vset_ok by lia. eexists. split; eauto. now rewrite upd_length.
  - rewrite E. cbn [bind]. eauto.
Qed.
End G.
End Ok.
