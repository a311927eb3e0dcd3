(** C48-C51 and C65: the driver (main.cpp), for every arithmetic and every reduction schedule. *)
From Coq Require Import Ascii String Permutation Reals Lra.
From Verif Require Import Base BaseLemmas ForList Arith MFd MCheb MSphere MGrid MParams MField MEom MInit MIo MMain MSim
  SphereSpec GridSpec RkSpec PGrid PTables PMake PSphere PSphere2 PGridOp PropTables PropGridOp PConc PEom PEomOk PRk PropRk PText PIo PropIo PInit PRed PDriver.
Local Open Scope nat_scope.

Section C48.
Context {F : Type} {AF : Arith F}.
Variable fmt : F -> text.
Variable stod_ : text -> option F.
Variables (sch_res sch_tv : nat -> list (list nat)).
Variable b : build.
Variable lib : nat -> nat -> nat -> nat -> sht F.

(** Parameters with which a run makes sense: the transform library serves the requested sizes, there are
    enough radial points for the stencils, the requested harmonic exists, and every schedule deals each
    iteration of the two reductions to exactly one thread. *)
Definition runnable (par : params F) : Prop :=
  let h := lib (pr_nl par) (pr_nm par) (pr_nlat par) (pr_nphi par) in
  s_lmax h = pr_nl par /\ s_mmax h = pr_nm par /\ s_nlat h = pr_nlat par /\ s_nphi h = pr_nphi par /\ shapes h /\
  (Z.of_nat (pr_nl par) < 2 ^ 31)%Z /\ 1 <= pr_nlat par /\ 1 <= pr_nphi par /\
  (use_cheb b = false -> 8 <= pr_nx par) /\ (use_cheb b = true -> 2 <= pr_nx par) /\
  LM (pr_nl par) (to_size (pr_l_ang par)) (to_size (pr_m_ang par)) < nlm_calc (pr_nl par) (pr_nm par) /\
  (forall k, deals (sch_res k) (pr_nx par * pr_nlat par * pr_nphi par)) /\ (forall k, deals (sch_tv k) (pr_nx par - 1)).

(** the objects main builds from the parameters, and the initial data u0 *)
Definition set_up (par : params F) (g : grid F) (e : eom F) (u0 : state F) : Prop :=
  Grid_make b (lib (pr_nl par) (pr_nm par) (pr_nlat par) (pr_nphi par)) (pr_cl par) (pr_Rmin par) (pr_Rmax par)
    (pr_nx par) (pr_nl par) (pr_nm par) (pr_nlat par) (pr_nphi par) = Ok g /\
  Eom_make g par = Ok e /\
  compact_pulse par g (vec (pr_nx par * pr_nlat par * pr_nphi par) f0) (vec (pr_nx par * pr_nlat par * pr_nphi par) f0) = Ok u0.
(** [step u] is what one call of time_step makes of the levels n = u, whatever the other buffers hold *)
Definition is_step (g : grid F) (e : eom F) (step : state F -> state F) : Prop :=
  forall f p s, field_ok g f -> field_ok g p -> scr_ok (g_n3 g) s ->
  exists f' p' s', time_step g (with_scr e s) f p = Ok (f', p', with_scr e s') /\ (fl_np1 f', fl_np1 p') = step (fl_n f, fl_n p).
(** [rho u] is what set_rho computes from u, whatever the other buffers hold *)
Definition is_rho (g : grid F) (e : eom F) (rho : state F -> list F) : Prop :=
  forall u s r, length (fst u) = g_n3 g -> length (snd u) = g_n3 g -> scr_ok (g_n3 g) s -> length r = g_n3 g ->
  exists s', set_rho g (with_scr e s) (fst u) (snd u) r = Ok (rho u, with_scr e s').
(** [t] is the text write_R_psl appends for the values v *)
Definition is_text (g : grid F) (v : list F) (t : text) : Prop :=
  forall fs name itm, fs_can fs (name_kind "RPsl" name itm) = true ->
  exists fs', write_R_psl fmt fs g name true itm v = Ok fs' /\ appended fs fs' (name_kind "RPsl" name itm) t.

Lemma run_init par file dir fs : Params_make stod_ b file = Ok par -> runnable par ->
  exists g e u0 st0, set_up par g e u0 /\ main_init fmt stod_ sch_res sch_tv b lib file dir fs = Ok (par, g, st0) /\
    grid_of b (lib (pr_nl par) (pr_nm par) (pr_nlat par) (pr_nphi par)) (pr_cl par) (pr_Rmin par) (pr_Rmax par) (pr_nx par) g /\
    eom_ok g e /\ g_n3 g = pr_nx par * pr_nlat par * pr_nphi par /\ g_nx g = pr_nx par /\ length (fst u0) = g_n3 g /\ length (snd u0) = g_n3 g /\
    inv fmt sch_res sch_tv g par dir e u0 fs 0 st0.
Proof.
  intros HP (Q1 & Q2 & Q3 & Q4 & Hsh & HL & Hla & Hph & H8 & H2 & Hlm & Dr & Dt).
  set (h := lib (pr_nl par) (pr_nm par) (pr_nlat par) (pr_nphi par)) in *.
  destruct (Grid_make_ok b h (pr_cl par) (pr_Rmin par) (pr_Rmax par) (pr_nx par) (pr_nl par) (pr_nm par) (pr_nlat par) (pr_nphi par)) as (g & Eg).
  { rewrite (sh_ct h Hsh), Q3. lia. } { intros Hc. left. auto. }
  assert (Hg : grid_of b h (pr_cl par) (pr_Rmin par) (pr_Rmax par) (pr_nx par) g) by (unfold grid_of; congruence).
  destruct (gof_sizes _ _ _ _ _ _ _ Hg) as (Eb & En & Enl & El & Ep & _).
  assert (N3 : g_n3 g = pr_nx par * pr_nlat par * pr_nphi par) by (unfold g_n3; rewrite En, El, Ep, Q3, Q4; reflexivity).
  destruct (Eom_make_total _ _ _ _ _ _ _ Hg par) as (e & Ee). pose proof (Eom_make_ok g par e Ee) as Oe.
  assert (Hx : 1 <= pr_nx par). { assert (CB : use_cheb b = true \/ use_cheb b = false) by (destruct (use_cheb b); auto). destruct CB as [CB|CB]; [specialize (H2 CB)|specialize (H8 CB)]; lia. }
  assert (Hlm' : LM (s_lmax h) (to_size (pr_l_ang par)) (to_size (pr_m_ang par)) < nlm_calc (s_lmax h) (s_mmax h)) by (rewrite Q1, Q2; auto).
  destruct (compact_pulse_ok b h (pr_cl par) (pr_Rmin par) (pr_Rmax par) (pr_nx par) g Hg Hsh Hx par Hlm' (vec (g_n3 g) f0) (vec (g_n3 g) f0) (vec_length _ _) (vec_length _ _))
    as (f1 & p1 & Ec & L1 & L2 & _).
  assert (Of : field_ok g (with_np1 (with_n (Field_make (txt "f") (g_n3 g) f0) f1) f1)) by (unfold field_ok; cbn; rewrite !vec_length; auto).
  assert (Op : field_ok g (with_np1 (with_n (Field_make (txt "p") (g_n3 g) f0) p1) p1)) by (unfold field_ok; cbn; rewrite !vec_length; auto).
  destruct (nir_total g (sch_res 0) (pr_dt par) f1 f1 p1) as (r & Er); auto; [rewrite N3; auto|].
  destruct (tv_total g (sch_tv 0) f1) as (tv & Et); auto; try lia; [rewrite En; auto|].
  set (st := Ms (with_np1 (with_n (Field_make (txt "f") (g_n3 g) f0) f1) f1) (with_np1 (with_n (Field_make (txt "p") (g_n3 g) f0) p1) p1) (vec (g_n3 g) f0) e fs 0 []).
  assert (HL' : (Z.of_nat (s_lmax h) < 2 ^ 31)%Z) by (rewrite Q1; auto).
  assert (EW : with_scr e (e_scr e) = e) by (destruct e; reflexivity).
  destruct (save_state_ok fmt b h _ _ _ _ g Hg Hsh HL' H8 H2 dir e Oe f0 r tv 0 st (e_scr e)) as (s' & Es & Os & Lr); auto; [apply Oe|apply vec_length|].
  eexists g, e, (f1, p1), _. unfold set_up. fold h. rewrite <- N3. split; [auto|]. split.
  - unfold main_init. rewrite HP. cbn [bind]. cbv zeta. fold h. rewrite Eg. cbn [bind]. rewrite Ee. cbn [bind]. rewrite <- N3.
    change (fl_n (Field_make (txt "f") (g_n3 g) f0)) with (vec (g_n3 g) (@f0 F _)). change (fl_n (Field_make (txt "p") (g_n3 g) f0)) with (vec (g_n3 g) (@f0 F _)).
    change (fl_np1 (Field_make (txt "f") (g_n3 g) f0)) with (vec (g_n3 g) (@f0 F _)). change (fl_np1 (Field_make (txt "p") (g_n3 g) f0)) with (vec (g_n3 g) (@f0 F _)).
    rewrite Ec. cbn [bind].
    change (norm_indep_res g (sch_res 0) (pr_dt par) _ _ _) with (norm_indep_res g (sch_res 0) (pr_dt par) f1 f1 p1). rewrite Er. cbn [bind].
    change (total_variation g (sch_tv 0) _) with (total_variation g (sch_tv 0) f1). rewrite Et. cbn [bind].
    fold st. rewrite Es. cbn [bind]. reflexivity.
  - split; [exact Hg|]. split; [exact Oe|]. split; [auto|]. split; [auto|]. split; [auto|]. split; [auto|]. unfold inv. cbn [ms_f ms_p ms_rho ms_eom ms_fs ms_save ms_log].
    assert (Z0 : forall s, 0 / s = 0) by (intros [|s]; [reflexivity|apply Nat.div_0_l; lia]). rewrite !Z0.
    split; [eauto|]. split; auto. split; auto. split; auto. split; auto. split; auto. split; auto. split; auto. split; auto. split; auto.
    intros [|k] x Hxx; [|destruct k; discriminate]. injection Hxx as <-. unfold entry. cbn [fst snd save_time Nat.mul U Nat.iter nat_rect]. auto.
Qed.

(** properties of the closed forms *)
Section Closed.
Variables (par : params F) (g : grid F) (e : eom F).
Let h := lib (pr_nl par) (pr_nm par) (pr_nlat par) (pr_nphi par).
Hypothesis Hr : runnable par.
Hypothesis Hg : grid_of b h (pr_cl par) (pr_Rmin par) (pr_Rmax par) (pr_nx par) g.
Hypothesis Oe : eom_ok g e.
Lemma advance_is_step : is_step g e (advance g e).
Proof.
  destruct Hr as (Q1 & Q2 & Q3 & Q4 & Hsh & HL & Hla & Hph & H8 & H2 & _). fold h in Q1, Q2, Q3, Q4, Hsh.
  assert (HL' : (Z.of_nat (s_lmax h) < 2 ^ 31)%Z) by (rewrite Q1; auto).
  intros f p s Of Op Os. assert (Oe' : eom_ok g (with_scr e s)) by (destruct Oe as (? & ? & _); unfold eom_ok; cbn; auto).
  destruct (time_step_closed b h _ _ _ _ g Hg Hsh HL' H8 H2 (with_scr e s) f p Oe' Of Op) as (f' & p' & s' & E & _ & _ & _ & _ & _ & _ & _ & RK).
  exists f', p', s'. split; [exact E|]. rewrite RK. unfold advance. cbn [fst snd with_scr e_dt]. apply rk4_ext_len with (n := g_n3 g).
  - eapply filter_total; eauto. apply Of.
  - eapply filter_total; eauto. apply Op.
  - intros [x y] Lx Ly. cbn [fst snd] in *. unfold rhs_of. cbn [fst snd]. unfold prhs_of. assert (Lz : length (zero3 g) = g_n3 g) by apply vec_length.
    destruct (set_k_ok b h _ _ _ _ g Hg Hsh HL' H8 H2 e s x y (zero3 g) (zero3 g) Oe Os Lx Ly Lz Lz) as [-> L']. unfold prhs_of in *. auto.
Qed.
Lemma rho_is_rho : is_rho g e (fun u => rho_of g e (fst u) (snd u)).
Proof.
  destruct Hr as (Q1 & Q2 & Q3 & Q4 & Hsh & HL & Hla & Hph & H8 & H2 & _). fold h in Q1, Q2, Q3, Q4, Hsh.
  assert (HL' : (Z.of_nat (s_lmax h) < 2 ^ 31)%Z) by (rewrite Q1; auto).
  intros u s r Lf Lp Os Lr. destruct (set_rho_ok b h _ _ _ _ g Hg Hsh HL' H8 H2 e Oe s (fst u) (snd u) r Os Lf Lp Lr) as (s' & E & _). eauto.
Qed.
Lemma step_sizes u : length (fst u) = g_n3 g -> length (snd u) = g_n3 g ->
  length (fst (advance g e u)) = g_n3 g /\ length (snd (advance g e u)) = g_n3 g /\ length (rho_of g e (fst u) (snd u)) = g_n3 g.
Proof.
  intros Lf Lp. destruct Hr as (Q1 & Q2 & Q3 & Q4 & Hsh & HL & Hla & Hph & H8 & H2 & _). fold h in Q1, Q2, Q3, Q4, Hsh.
  assert (HL' : (Z.of_nat (s_lmax h) < 2 ^ 31)%Z) by (rewrite Q1; auto).
  assert (EW : with_scr e (e_scr e) = e) by (destruct e; reflexivity).
  set (f := with_n (Field_make (txt "f") (g_n3 g) f0) (fst u)). set (p := with_n (Field_make (txt "p") (g_n3 g) f0) (snd u)).
  assert (Of : field_ok g f) by (unfold field_ok; cbn; rewrite !vec_length; auto). assert (Op : field_ok g p) by (unfold field_ok; cbn; rewrite !vec_length; auto).
  destruct (time_step_closed b h _ _ _ _ g Hg Hsh HL' H8 H2 e f p Oe Of Op) as (f' & p' & s' & E & _ & Of' & Op' & _ & _ & _ & _ & RK).
  change (fl_n f) with (fst u) in RK. change (fl_n p) with (snd u) in RK. fold (advance g e u) in RK.
  assert (R1 : fst (advance g e u) = fl_np1 f') by (rewrite <- RK; auto). assert (R2 : snd (advance g e u) = fl_np1 p') by (rewrite <- RK; auto).
  rewrite R1, R2. split; [apply Of'|]. split; [apply Op'|].
  destruct (set_rho_ok b h _ _ _ _ g Hg Hsh HL' H8 H2 e Oe (e_scr e) (fst u) (snd u) (fst u)) as (s2 & _ & _ & L); auto. apply Oe.
Qed.
Lemma iter_sizes u0 j : length (fst u0) = g_n3 g -> length (snd u0) = g_n3 g ->
  length (fst (U g e u0 j)) = g_n3 g /\ length (snd (U g e u0 j)) = g_n3 g.
Proof.
  intros L1 L2. induction j as [|j [IH1 IH2]]; [auto|]. change (U g e u0 (S j)) with (advance g e (U g e u0 j)). destruct (step_sizes _ IH1 IH2) as (A & B & _). auto.
Qed.
Lemma text_is_text v : length v = g_n3 g -> is_text g v (r_text fmt g v).
Proof.
  destruct Hr as (Q1 & Q2 & Q3 & Q4 & Hsh & HL & _). fold h in Q1, Q2, Q3, Q4, Hsh.
  intros Lv fs name itm C. destruct (write_R_psl_ok fmt b h _ _ _ _ g Hg Hsh fs name true itm v Lv) as (ps & rows & E & _ & _ & EW & _). rewrite C in EW.
  eexists. split; [exact EW|]. unfold write_R_psl in EW. rewrite E in EW. cbn [bind] in EW. rewrite C in EW. inv_bind EW.
  replace (r_text fmt g v) with (header_R_l ++ concat rows); [apply append_appended|]. unfold r_text. rewrite E, E0.
  assert (X : fs_file (fs_append fs (name_kind "RPsl" name itm) (header_R_l ++ x)) (name_kind "RPsl" name itm) = fs_file (fs_append fs (name_kind "RPsl" name itm) (header_R_l ++ concat rows)) (name_kind "RPsl" name itm)) by congruence.
  rewrite !app_data in X. assert (X' : (match fs_file fs (name_kind "RPsl" name itm) with Some s => s | None => [] end) ++ header_R_l ++ x = (match fs_file fs (name_kind "RPsl" name itm) with Some s => s | None => [] end) ++ header_R_l ++ concat rows) by congruence.
  apply app_inv_head in X'. congruence.
Qed.
End Closed.

(** ** C65: with runnable parameters and a save stride of at least 1 the whole program runs to its end:
    no assert fails, no vector is accessed out of range, nothing is divided by an integer zero, no
    exception escapes; in debug and release builds, with either radial grid, for every nt, every
    initial file system (including unwritable files) and every schedule. *)
Theorem C65_run_completes par file dir fs : Params_make stod_ b file = Ok par -> runnable par -> 1 <= pr_t_step_save par ->
  exists st, main fmt stod_ sch_res sch_tv b lib file dir fs = Ok st.
Proof.
  intros HP Hr Hs. destruct (run_init par file dir fs HP Hr) as (g & e & u0 & st0 & _ & EI & Hg & Oe & N3 & Nx & _ & _ & I0).
  unfold main. rewrite EI. cbn [bind]. pose proof Hr as (Q1 & Q2 & Q3 & Q4 & Hsh & HL & Hla & Hph & H8 & H2 & Hlm & Dr & Dt).
  destruct (Nat.eq_dec (pr_nt par) 0) as [Z|Z]; [rewrite Z, for_nil by lia; eauto|].
  destruct (loop_ok fmt sch_res sch_tv b _ _ _ _ _ g Hg Hsh ltac:(rewrite Q1; auto) H8 H2 ltac:(lia) ltac:(lia) par Hs ltac:(rewrite N3; auto) ltac:(rewrite Nx; auto) dir e Oe u0 fs st0 I0 (pr_nt par) ltac:(lia)) as (st & E & _). eauto.
Qed.

(** ** C51: after j iterations both levels hold the j-fold iterate of one time step *)
Theorem C51_iterates par file dir fs : Params_make stod_ b file = Ok par -> runnable par -> 1 <= pr_t_step_save par ->
  exists g e u0 step st0, set_up par g e u0 /\ is_step g e step /\ main_init fmt stod_ sch_res sch_tv b lib file dir fs = Ok (par, g, st0) /\
    forall j, exists st, for_ 1 (1 + j) (main_iter fmt sch_res sch_tv g par dir) st0 = Ok st /\
      (fl_n (ms_f st), fl_n (ms_p st)) = Nat.iter j step u0 /\ (fl_np1 (ms_f st), fl_np1 (ms_p st)) = Nat.iter j step u0.
Proof.
  intros HP Hr Hs. destruct (run_init par file dir fs HP Hr) as (g & e & u0 & st0 & SU & EI & Hg & Oe & N3 & Nx & _ & _ & I0).
  pose proof Hr as (Q1 & Q2 & Q3 & Q4 & Hsh & HL & Hla & Hph & H8 & H2 & Hlm & Dr & Dt).
  exists g, e, u0, (advance g e), st0. split; auto. split; [apply (advance_is_step par); auto|]. split; auto. intros j.
  destruct (loop_ok fmt sch_res sch_tv b _ _ _ _ _ g Hg Hsh ltac:(rewrite Q1; auto) H8 H2 ltac:(lia) ltac:(lia) par Hs ltac:(rewrite N3; auto) ltac:(rewrite Nx; auto) dir e Oe u0 fs st0 I0 (1 + j) ltac:(lia)) as (st & E & I).
  replace (1 + j - 1) with j in I by lia. destruct I as (_ & _ & _ & _ & I1 & I2 & _). exists st. auto.
Qed.

(** ** C48: the files of a run *)
(** save number k happens: k = 0 (initial data) or k*t_step_save is one of the steps 1 .. nt-1 *)
Definition saved (par : params F) (k : nat) : Prop := k = 0 \/ k * pr_t_step_save par < pr_nt par.
Definition f_file (dir : text) (k : nat) : text := name_kind "RPsl" (dir ++ txt "/f") (Z.of_nat k).
Definition rho_file (dir : text) (k : nat) : text := name_kind "RPsl" (dir ++ txt "/rho") (Z.of_nat k).

Lemma i32_id k : (Z.of_nat k < 2 ^ 31)%Z -> i32 (Z.of_nat k) = Z.of_nat k.
Proof. intros H. unfold i32. rewrite Z.mod_small; lia. Qed.
Lemma files_distinct dir k k' : f_file dir k <> rho_file dir k' /\ (k <> k' -> f_file dir k <> f_file dir k' /\ rho_file dir k <> rho_file dir k').
Proof.
  unfold f_file, rho_file. split; [|intros Hk; split]; intros E; apply C56_names_unique in E; try (cbn; tauto); destruct E as (_ & E & Ei); try lia.
  apply app_inv_head in E. discriminate.
Qed.
Lemma wr_file_spec g fs name k v : fs_can fs (name_kind "RPsl" name (Z.of_nat k)) = true -> (Z.of_nat k < 2 ^ 31)%Z ->
  appended fs (wr_file fmt g fs name k v) (name_kind "RPsl" name (Z.of_nat k)) (r_text fmt g v).
Proof. intros C Hk. unfold wr_file. rewrite i32_id, C by auto. apply append_appended. Qed.
Lemma saves_spec par g e dir u0 fs K : (forall k, k <= K -> fs_can fs (f_file dir k) = true /\ fs_can fs (rho_file dir k) = true) -> (Z.of_nat K < 2 ^ 31)%Z ->
  let fs' := saves fmt g par dir e u0 K fs in let V k := U g e u0 (k * pr_t_step_save par) in
  (forall k, k <= K -> fs_file fs' (f_file dir k) = Some (contents fs (f_file dir k) ++ r_text fmt g (fst (V k))) /\
                       fs_file fs' (rho_file dir k) = Some (contents fs (rho_file dir k) ++ r_text fmt g (rho_of g e (fst (V k)) (snd (V k))))) /\
  (forall fn, (forall k, k <= K -> fn <> f_file dir k /\ fn <> rho_file dir k) -> fs_file fs' fn = fs_file fs fn) /\
  (forall fn, fs_can fs' fn = fs_can fs fn).
Proof.
  intros HC HK. cbv zeta.
  assert (PUT : forall u k fs1, k <= K -> (forall fn, fs_can fs1 fn = fs_can fs fn) ->
    fs_file (put fmt g dir e u k fs1) (f_file dir k) = Some (contents fs1 (f_file dir k) ++ r_text fmt g (fst u)) /\
    fs_file (put fmt g dir e u k fs1) (rho_file dir k) = Some (contents fs1 (rho_file dir k) ++ r_text fmt g (rho_of g e (fst u) (snd u))) /\
    (forall fn, fn <> f_file dir k -> fn <> rho_file dir k -> fs_file (put fmt g dir e u k fs1) fn = fs_file fs1 fn) /\
    (forall fn, fs_can (put fmt g dir e u k fs1) fn = fs_can fs1 fn)).
  { intros u k fs1 Hk Hcan. destruct (HC k Hk) as [C1 C2]. unfold put.
    change (rho_name dir) with (dir ++ txt "/rho"). replace (f_name dir) with (dir ++ txt "/f") by reflexivity.
    set (fs2 := wr_file fmt g fs1 (dir ++ txt "/f") k (fst u)).
    destruct (wr_file_spec g fs1 (dir ++ txt "/f") k (fst u)) as (A1 & A2 & A3); [rewrite Hcan; exact C1|lia|]. fold fs2 in A1, A2, A3. fold (f_file dir k) in A1, A2.
    destruct (wr_file_spec g fs2 (dir ++ txt "/rho") k (rho_of g e (fst u) (snd u))) as (B1 & B2 & B3); [rewrite A3, Hcan; exact C2|lia|]. fold (rho_file dir k) in B1, B2.
    destruct (files_distinct dir k k) as [D _]. split; [|split; [|split]].
    - rewrite B2 by auto. exact A1.
    - rewrite B1. unfold contents. rewrite A2 by auto. reflexivity.
    - intros fn N1 N2. rewrite B2, A2; auto.
    - intros fn. rewrite B3. apply A3. }
  assert (G : forall K', K' <= K ->
    (forall k, k <= K' -> fs_file (saves fmt g par dir e u0 K' fs) (f_file dir k) = Some (contents fs (f_file dir k) ++ r_text fmt g (fst (U g e u0 (k * pr_t_step_save par)))) /\
      fs_file (saves fmt g par dir e u0 K' fs) (rho_file dir k) = Some (contents fs (rho_file dir k) ++ r_text fmt g (rho_of g e (fst (U g e u0 (k * pr_t_step_save par))) (snd (U g e u0 (k * pr_t_step_save par)))))) /\
    (forall fn, (forall k, k <= K' -> fn <> f_file dir k /\ fn <> rho_file dir k) -> fs_file (saves fmt g par dir e u0 K' fs) fn = fs_file fs fn) /\
    (forall fn, fs_can (saves fmt g par dir e u0 K' fs) fn = fs_can fs fn)); [|apply G; lia].
  induction K' as [|K' IH]; intros HK'.
  - destruct (PUT u0 0 fs) as (A1 & A2 & A3 & A4); [lia|auto|]. cbn [saves]. split; [|split; auto].
    + intros k Hk. assert (k = 0) by lia. subst k. cbn [Nat.mul]. auto.
    + intros fn Hfn. destruct (Hfn 0); [lia|]. auto.
  - destruct IH as (I1 & I2 & I3); [lia|]. cbn [saves]. destruct (PUT (U g e u0 (S K' * pr_t_step_save par)) (S K') (saves fmt g par dir e u0 K' fs)) as (A1 & A2 & A3 & A4); [lia|auto|].
    assert (NEW : fs_file (saves fmt g par dir e u0 K' fs) (f_file dir (S K')) = fs_file fs (f_file dir (S K')) /\ fs_file (saves fmt g par dir e u0 K' fs) (rho_file dir (S K')) = fs_file fs (rho_file dir (S K'))).
    { split; apply I2; intros k Hk; destruct (files_distinct dir (S K') k) as [D1 D2]; destruct (files_distinct dir k (S K')) as [D3 _]; destruct D2 as [D2 D4]; try lia; auto. }
    destruct NEW as [NF NR]. unfold contents in A1, A2. rewrite NF in A1. rewrite NR in A2. split; [|split].
    + intros k Hk. destruct (Nat.eq_dec k (S K')) as [->|Hne]; [auto|]. destruct (files_distinct dir k (S K')) as [D1 D2]. destruct (files_distinct dir (S K') k) as [D3 _]. destruct D2 as [D2 D4]; auto.
      rewrite !A3 by auto. apply I1. lia.
    + intros fn Hfn. destruct (Hfn (S K')); [lia|]. rewrite A3 by auto. apply I2. intros k Hk. apply Hfn. lia.
    + intros fn. rewrite A4. apply I3.
Qed.
Lemma saved_le par k : 1 <= pr_t_step_save par -> saved par k <-> k <= (pr_nt par - 1) / pr_t_step_save par.
Proof.
  intros Hs. unfold saved. set (s := pr_t_step_save par) in *. split.
  - intros [->|H]; [lia|]. apply Nat.div_le_lower_bound; lia.
  - intros H. pose proof (Nat.mul_div_le (pr_nt par - 1) s ltac:(lia)) as M. destruct k; [auto|right].
    assert (s * S k <= s * ((pr_nt par - 1) / s)) by (apply Nat.mul_le_mono_l; auto). lia.
Qed.

Theorem C48_outputs par file dir fs : Params_make stod_ b file = Ok par -> runnable par -> 1 <= pr_t_step_save par -> (Z.of_nat (pr_nt par) < 2 ^ 31)%Z ->
  (forall k, saved par k -> fs_can fs (f_file dir k) = true /\ fs_can fs (rho_file dir k) = true) ->
  exists g e u0 step rho st, set_up par g e u0 /\ is_step g e step /\ is_rho g e rho /\
    main fmt stod_ sch_res sch_tv b lib file dir fs = Ok st /\
    (forall k, saved par k -> let u := Nat.iter (k * pr_t_step_save par) step u0 in
       exists tf tr, is_text g (fst u) tf /\ is_text g (rho u) tr /\
         fs_file (ms_fs st) (f_file dir k) = Some (contents fs (f_file dir k) ++ tf) /\
         fs_file (ms_fs st) (rho_file dir k) = Some (contents fs (rho_file dir k) ++ tr)) /\
    (forall fn, (forall k, saved par k -> fn <> f_file dir k /\ fn <> rho_file dir k) -> fs_file (ms_fs st) fn = fs_file fs fn) /\
    length (ms_log st) = S ((pr_nt par - 1) / pr_t_step_save par) /\
    (forall k, saved par k -> let j := k * pr_t_step_save par in let u := Nat.iter j step u0 in
       exists fv pv r tv, (if Nat.eqb k 0 then fv = fst u /\ pv = snd u
           else grid_filter g (fst (Nat.iter (j - 1) step u0)) = Ok fv /\ grid_filter g (snd (Nat.iter (j - 1) step u0)) = Ok pv) /\
         norm_indep_res g (sch_res k) (pr_dt par) fv (fst u) pv = Ok r /\ total_variation g (sch_tv k) (fst u) = Ok tv /\
         nth_error (ms_log st) k = Some (if Nat.eqb k 0 then f0 else fmul (pr_dt par) (fnat j), r, tv)).
Proof.
  intros HP Hr Hs Hnt HC. destruct (run_init par file dir fs HP Hr) as (g & e & u0 & st0 & SU & EI & Hg & Oe & N3 & Nx & L1 & L2 & I0).
  pose proof Hr as (Q1 & Q2 & Q3 & Q4 & Hsh & HL & Hla & Hph & H8 & H2 & Hlm & Dr & Dt).
  assert (R : exists st, main fmt stod_ sch_res sch_tv b lib file dir fs = Ok st /\ inv fmt sch_res sch_tv g par dir e u0 fs (pr_nt par - 1) st).
  { unfold main. rewrite EI. cbn [bind]. destruct (Nat.eq_dec (pr_nt par) 0) as [Z|Z]; [rewrite Z, for_nil by lia; exists st0; auto|].
    apply (loop_ok fmt sch_res sch_tv b _ _ _ _ _ g Hg Hsh ltac:(rewrite Q1; auto) H8 H2 ltac:(lia) ltac:(lia) par Hs ltac:(rewrite N3; auto) ltac:(rewrite Nx; auto) dir e Oe u0 fs st0 I0 (pr_nt par) ltac:(lia)). }
  destruct R as (st & EM & I). exists g, e, u0, (advance g e), (fun u => rho_of g e (fst u) (snd u)), st.
  split; auto. split; [apply (advance_is_step par); auto|]. split; [apply (rho_is_rho par); auto|]. split; auto.
  destruct I as (_ & _ & _ & _ & _ & _ & _ & _ & Efs & Llog & Elog).
  set (K := (pr_nt par - 1) / pr_t_step_save par) in *.
  assert (HK : (Z.of_nat K < 2 ^ 31)%Z). { assert (K <= pr_nt par - 1) by (apply Nat.div_le_upper_bound; nia). lia. }
  destruct (saves_spec par g e dir u0 fs K) as (S1 & S2 & _); auto; [intros k Hk; apply HC, saved_le; auto|]. rewrite Efs. split; [|split].
  - intros k Hk u. apply saved_le in Hk; auto. destruct (S1 k Hk) as [A1 A2]. exists (r_text fmt g (fst u)), (r_text fmt g (rho_of g e (fst u) (snd u))).
    assert (LU : length (fst u) = g_n3 g /\ length (snd u) = g_n3 g) by (apply (iter_sizes par g e Hr Hg Oe u0 (k * pr_t_step_save par)); auto).
    destruct LU as [LU1 LU2]. split; [apply (text_is_text par); auto|]. split; [apply (text_is_text par); auto; apply (step_sizes par g e Hr Hg Oe u LU1 LU2)|]. auto.
  - intros fn Hfn. apply S2. intros k Hk. apply Hfn. apply saved_le; auto.
  - split; [exact Llog|]. intros k Hk j u. apply saved_le in Hk; auto. fold K in Hk.
    destruct (nth_error (ms_log st) k) as [[[t r] tv]|] eqn:EN; [|apply nth_error_None in EN; lia].
    destruct (Elog k _ EN) as (Et & Er & Ev). cbn [fst snd] in Et, Er, Ev. fold j in Er, Ev.
    assert (LU : forall i, length (fst (U g e u0 i)) = g_n3 g /\ length (snd (U g e u0 i)) = g_n3 g) by (intros; apply (iter_sizes par g e Hr Hg Oe); auto).
    destruct k as [|k].
    + exists (fst u), (snd u), r, tv. cbn [Nat.eqb]. split; [auto|]. split; [exact Er|]. split; [exact Ev|]. rewrite Et. reflexivity.
    + eexists _, _, r, tv. cbn [Nat.eqb]. destruct (LU (j - 1)) as [M1 M2].
      split; [split; eapply filter_total; eauto; rewrite Q1; auto|]. split; [exact Er|]. split; [exact Ev|]. rewrite Et. reflexivity.
Qed.

(** ** C51: a longer run repeats every output of a shorter one *)
Definition with_nt (par : params F) (nt : nat) : params F :=
  Par nt (pr_nx par) (pr_nl par) (pr_nm par) (pr_nlat par) (pr_nphi par) (pr_t_step_save par) (pr_dt par) (pr_cl par) (pr_Rmax par) (pr_Rmin par)
    (pr_bh_mass par) (pr_bh_spin par) (pr_km1 par) (pr_k0 par) (pr_k1 par) (pr_k2 par) (pr_V2 par) (pr_V3 par) (pr_V4 par) (pr_id_type par) (pr_direction par)
    (pr_amp par) (pr_rl par) (pr_ru par) (pr_l_ang par) (pr_m_ang par).
Lemma run_files par file dir fs st : Params_make stod_ b file = Ok par -> runnable par -> 1 <= pr_t_step_save par -> (Z.of_nat (pr_nt par) < 2 ^ 31)%Z ->
  (forall fn, fs_can fs fn = true) -> main fmt stod_ sch_res sch_tv b lib file dir fs = Ok st ->
  exists g e u0, set_up par g e u0 /\ forall k, saved par k -> let V := U g e u0 (k * pr_t_step_save par) in
    fs_file (ms_fs st) (f_file dir k) = Some (contents fs (f_file dir k) ++ r_text fmt g (fst V)) /\
    fs_file (ms_fs st) (rho_file dir k) = Some (contents fs (rho_file dir k) ++ r_text fmt g (rho_of g e (fst V) (snd V))).
Proof.
  intros HP Hr Hs Hnt HC EM. destruct (run_init par file dir fs HP Hr) as (g & e & u0 & st0 & SU & EI & Hg & Oe & N3 & Nx & L1 & L2 & I0).
  pose proof Hr as (Q1 & Q2 & Q3 & Q4 & Hsh & HL & Hla & Hph & H8 & H2 & Hlm & Dr & Dt).
  assert (R : inv fmt sch_res sch_tv g par dir e u0 fs (pr_nt par - 1) st).
  { unfold main in EM. rewrite EI in EM. cbn [bind] in EM. destruct (Nat.eq_dec (pr_nt par) 0) as [Z|Z]; [rewrite Z, for_nil in EM by lia; injection EM as <-; rewrite Z; exact I0|].
    destruct (loop_ok fmt sch_res sch_tv b _ _ _ _ _ g Hg Hsh ltac:(rewrite Q1; auto) H8 H2 ltac:(lia) ltac:(lia) par Hs ltac:(rewrite N3; auto) ltac:(rewrite Nx; auto) dir e Oe u0 fs st0 I0 (pr_nt par) ltac:(lia)) as (st' & E' & I').
    congruence. }
  destruct R as (_ & _ & _ & _ & _ & _ & _ & _ & Efs & _). exists g, e, u0. split; auto. intros k Hk V. apply saved_le in Hk; auto.
  assert (HK : (Z.of_nat ((pr_nt par - 1) / pr_t_step_save par) < 2 ^ 31)%Z). { assert ((pr_nt par - 1) / pr_t_step_save par <= pr_nt par - 1) by (apply Nat.div_le_upper_bound; nia). lia. }
  destruct (saves_spec par g e dir u0 fs ((pr_nt par - 1) / pr_t_step_save par)) as (S1 & _ & _); auto. rewrite Efs. apply S1; auto.
Qed.
Theorem C51_longer_run par nt' file file' dir fs st st' : Params_make stod_ b file = Ok par -> Params_make stod_ b file' = Ok (with_nt par nt') ->
  runnable par -> 1 <= pr_t_step_save par -> pr_nt par <= nt' -> (Z.of_nat nt' < 2 ^ 31)%Z -> (forall fn, fs_can fs fn = true) ->
  main fmt stod_ sch_res sch_tv b lib file dir fs = Ok st -> main fmt stod_ sch_res sch_tv b lib file' dir fs = Ok st' ->
  forall k, saved par k -> fs_file (ms_fs st) (f_file dir k) = fs_file (ms_fs st') (f_file dir k) /\ fs_file (ms_fs st) (rho_file dir k) = fs_file (ms_fs st') (rho_file dir k).
Proof.
  intros HP HP' Hr Hs Hle Hnt HC EM EM' k Hk.
  destruct (run_files par file dir fs st HP Hr Hs ltac:(lia) HC EM) as (g & e & u0 & (S1 & S2 & S3) & H).
  destruct (run_files (with_nt par nt') file' dir fs st' HP' Hr Hs Hnt HC EM') as (g' & e' & u0' & (S1' & S2' & S3') & H').
  cbn [with_nt pr_nt pr_nx pr_nl pr_nm pr_nlat pr_nphi pr_t_step_save pr_dt pr_cl pr_Rmax pr_Rmin] in S1'.
  assert (g' = g) by congruence. subst g'.
  change (Eom_make g (with_nt par nt')) with (Eom_make g par) in S2'. assert (e' = e) by congruence. subst e'.
  change (compact_pulse (with_nt par nt') g) with (compact_pulse par g) in S3'. cbn [with_nt pr_nx pr_nlat pr_nphi] in S3'. assert (u0' = u0) by congruence. subst u0'.
  assert (Hk' : saved (with_nt par nt') k) by (destruct Hk as [->|Hk]; [now left|right; cbn [with_nt pr_t_step_save pr_nt]; lia]).
  destruct (H k Hk) as [-> ->]. destruct (H' k Hk') as [-> ->]. auto.
Qed.

(** ** C49: stride 0 *)
Theorem C49_zero_stride par file dir fs : Params_make stod_ b file = Ok par -> runnable par -> pr_t_step_save par = 0 ->
  (2 <= pr_nt par -> main fmt stod_ sch_res sch_tv b lib file dir fs = UB) /\
  (pr_nt par <= 1 -> exists st, main fmt stod_ sch_res sch_tv b lib file dir fs = Ok st).
Proof.
  intros HP Hr Hs. destruct (run_init par file dir fs HP Hr) as (g & e & u0 & st0 & SU & EI & Hg & Oe & N3 & Nx & L1 & L2 & I0).
  pose proof Hr as (Q1 & Q2 & Q3 & Q4 & Hsh & HL & Hla & Hph & H8 & H2 & Hlm & Dr & Dt). unfold main. rewrite EI. cbn [bind]. split; intros Hn.
  - rewrite for_step by lia. destruct I0 as ((s & Ee & Os) & Of & Op & _). unfold main_iter at 1. rewrite Ee.
    assert (Oe' : eom_ok g (with_scr e s)) by (destruct Oe as (? & ? & _); unfold eom_ok; cbn; auto).
    destruct (time_step_closed b _ _ _ _ _ g Hg Hsh ltac:(rewrite Q1; auto) H8 H2 (with_scr e s) (ms_f st0) (ms_p st0) Oe' Of Op) as (f' & p' & s' & E & _).
    rewrite E. cbn [bind]. rewrite Hs. reflexivity.
  - rewrite for_nil by lia. eauto.
Qed.
End C48.

(** the launcher's stride (exact arithmetic) *)
Lemma py_stride nt ns : (0 <= nt)%Z -> (1 <= ns)%Z -> py_t_step_save nt ns = Z.max 1 (nt / ns).
Proof.
  intros H1 H2. unfold py_t_step_save, py_int.
  assert (P : (0 < IZR ns)%R) by (apply IZR_lt; lia). assert (P0 : (0 <= IZR nt)%R) by (apply IZR_le; lia).
  assert (Q : (0 <= IZR nt / IZR ns)%R) by (apply Rmult_le_pos; auto; apply Rlt_le, Rinv_0_lt_compat; auto).
  destruct (Rlt_dec (IZR nt / IZR ns) 0) as [C|_]; [lra|].
  assert (E : Int_part (IZR nt / IZR ns) = (nt / ns)%Z).
  { unfold Int_part. enough ((nt / ns + 1)%Z = up (IZR nt / IZR ns)) by lia. pose proof (Z.div_mod nt ns ltac:(lia)) as D. pose proof (Z.mod_pos_bound nt ns ltac:(lia)) as B.
    set (q := (nt / ns)%Z) in *. set (r := (nt mod ns)%Z) in *.
    assert (E1 : (IZR nt = IZR ns * IZR q + IZR r)%R) by (rewrite D at 1; rewrite plus_IZR, mult_IZR; reflexivity).
    assert (B1 : (0 <= IZR r)%R) by (apply IZR_le; lia). assert (B2 : (IZR r < IZR ns)%R) by (apply IZR_lt; lia).
    replace (IZR nt / IZR ns)%R with (IZR q + IZR r / IZR ns)%R by (rewrite E1; field; lra).
    assert (0 <= IZR r / IZR ns < 1)%R; [|apply tech_up; rewrite plus_IZR; lra]. split; [apply Rmult_le_pos; auto; apply Rlt_le, Rinv_0_lt_compat; auto|].
    apply (Rmult_lt_reg_r (IZR ns)); auto. unfold Rdiv. rewrite Rmult_assoc, Rinv_l by lra. lra. }
  rewrite E. pose proof (Z.div_pos nt ns ltac:(lia) ltac:(lia)). destruct (Z.eqb_spec (nt / ns) 0); lia.
Qed.
Theorem C49_launcher_never_zero nt ns : (py_t_step_save nt ns <> 0)%Z /\ ((0 <= nt)%Z -> (1 <= ns)%Z -> (1 <= py_t_step_save nt ns)%Z).
Proof.
  split; [|intros; rewrite py_stride; lia]. unfold py_t_step_save. destruct (Z.eqb_spec (py_int (IZR nt / IZR ns)) 0); lia.
Qed.

(** ** C50: how many outputs a run makes with the launcher's stride *)
Theorem C50_number_of_outputs {F} {AF : Arith F} fmt stod_ sch_res sch_tv b lib (par : params F) file dir fs ns :
  Params_make stod_ b file = Ok par -> runnable sch_res sch_tv b lib par -> (1 <= ns)%Z -> 1 <= pr_nt par ->
  pr_t_step_save par = Z.to_nat (py_t_step_save (Z.of_nat (pr_nt par)) ns) ->
  exists st, main fmt stod_ sch_res sch_tv b lib file dir fs = Ok st /\ length (ms_log st) = ms_save st + 1 /\
    let outputs := Z.of_nat (length (ms_log st)) in
    (Z.min (Z.of_nat (pr_nt par)) ns <= outputs)%Z /\ (outputs <= 2 * ns - 1)%Z /\ ((Z.of_nat (pr_nt par) < ns)%Z -> outputs = Z.of_nat (pr_nt par)).
Proof.
  intros HP Hr Hns Hnt Hst. rewrite py_stride in Hst by lia.
  assert (Hs : 1 <= pr_t_step_save par) by lia.
  destruct (run_init fmt stod_ sch_res sch_tv b lib par file dir fs HP Hr) as (g & e & u0 & st0 & SU & EI & Hg & Oe & N3 & Nx & L1 & L2 & I0).
  pose proof Hr as (Q1 & Q2 & Q3 & Q4 & Hsh & HL & Hla & Hph & H8 & H2 & Hlm & Dr & Dt).
  destruct (loop_ok fmt sch_res sch_tv b _ _ _ _ _ g Hg Hsh ltac:(rewrite Q1; auto) H8 H2 ltac:(lia) ltac:(lia) par Hs ltac:(rewrite N3; auto) ltac:(rewrite Nx; auto) dir e Oe u0 fs st0 I0 (pr_nt par) ltac:(lia)) as (st & E & I).
  exists st. unfold main. rewrite EI. cbn [bind]. split; auto. destruct I as (_ & _ & _ & _ & _ & _ & _ & Esv & _ & Elog & _).
  rewrite Elog, Esv. split; [lia|]. cbv zeta.
  set (nt := pr_nt par) in *. set (s := pr_t_step_save par) in *.
  assert (ED : Z.of_nat ((nt - 1) / s) = ((Z.of_nat nt - 1) / Z.of_nat s)%Z) by (rewrite Nat2Z.inj_div; f_equal; lia).
  rewrite Nat2Z.inj_succ, ED. assert (ES : Z.of_nat s = Z.max 1 (Z.of_nat nt / ns)) by lia. rewrite ES.
  set (N := Z.of_nat nt) in *. assert (HN : (1 <= N)%Z) by lia. clearbody N. clear - HN Hns.
  pose proof (Z.div_mod N ns ltac:(lia)) as D. pose proof (Z.mod_pos_bound N ns ltac:(lia)) as B. set (q := (N / ns)%Z) in *. set (r := (N mod ns)%Z) in *.
  assert (HQ : (0 <= q)%Z) by (apply Z.div_pos; lia). clearbody q r.
  destruct (Z.eq_dec q 0) as [->|Hq].
  - rewrite Z.max_l by lia. rewrite Z.div_1_r. lia.
  - rewrite Z.max_r by lia. pose proof (Z.div_mod (N - 1) q ltac:(lia)) as D2. pose proof (Z.mod_pos_bound (N - 1) q ltac:(lia)) as B2.
    set (k := ((N - 1) / q)%Z) in *. set (t := ((N - 1) mod q)%Z) in *. clearbody k t. split; [|split].
    + assert (ns - 1 <= k)%Z by nia. lia.
    + nia.
    + intros. nia.
Qed.

(** ** A concrete run that meets the hypotheses of C48-C51 and C65: a parameter file as the launcher writes
    it, the toy integer arithmetic, a schedule with two threads. *)
From Verif Require Import Toy.
Section Example_.
#[local] Existing Instance Z_arith.
Definition nl_ : text := [nl_char].
Fixpoint unlines (l : list string) : text := match l with [] => [] | s :: l' => txt s ++ nl_ ++ unlines l' end.
Definition demo_file (nt ts : string) : text := unlines (("nt " ++ nt) :: "nx 9" :: "nl 2" :: "nm 1" :: "nlat 3" :: "nphi 4" :: ("t_step_save " ++ ts) :: "dt 0.01"
  :: "compactification_length 100" :: "Rmax 100" :: "Rmin 1.9" :: "black_hole_mass 1" :: "black_hole_spin 0.7" :: "km1 0" :: "k0 1" :: "k1 0" :: "k2 0" :: "V2 0" :: "V3 0" :: "V4 0"
  :: "initial_data_type compact_pulse" :: "initial_data_direction ingoing" :: "amp 0.1" :: "rl 2" :: "ru 4" :: "l_ang 1" :: "m_ang 1" :: nil)%string.
Definition demo_stod (s : text) : option Z := match stoi s with Ok z => Some z | _ => None end.
Definition demo_params (nt ts : nat) : params Z :=
  (@Par Z nt 9 2 1 3 4 ts 0%Z 100%Z 100%Z 1%Z 1%Z 0%Z 0%Z 1%Z 0%Z 0%Z 0%Z 0%Z 0%Z (txt "compact_pulse") (txt "ingoing") 0%Z 2%Z 4%Z 1%Z 1%Z).
Definition two_threads (n : nat) : list (list nat) := [seq 0 (n / 2); seq (n / 2) (n - n / 2)].
Lemma two_threads_deals n : deals (two_threads n) n.
Proof.
  unfold deals, two_threads. cbn [concat]. rewrite app_nil_r. pose proof (Nat.div_le_upper_bound n 2 n ltac:(lia) ltac:(lia)) as B.
  replace (seq 0 (n / 2) ++ seq (n / 2) (n - n / 2)) with (seq 0 n); [reflexivity|]. rewrite <- seq_app. f_equal. lia.
Qed.
Example C48_C51_C65_nonvacuous :
  Params_make demo_stod (Build false true false) (Some (demo_file "7" "3")) = Ok (demo_params 7 3) /\
  Params_make demo_stod (Build false true false) (Some (demo_file "10" "3")) = Ok (with_nt (demo_params 7 3) 10) /\
  Params_make demo_stod (Build false true false) (Some (demo_file "7" "0")) = Ok (demo_params 7 0) /\
  (forall ts, runnable (fun _ => two_threads 108) (fun _ => two_threads 8) (Build false true false) toy_sht (demo_params 7 ts)) /\
  saved (demo_params 7 3) 2 /\ ~ saved (demo_params 7 3) 3 /\
  pr_t_step_save (demo_params 7 3) = Z.to_nat (py_t_step_save (Z.of_nat (pr_nt (demo_params 7 3))) 2).
Proof.
  split; [vm_compute; reflexivity|]. split; [vm_compute; reflexivity|]. split; [vm_compute; reflexivity|].
  split; [|split; [right; cbn; lia|split; [intros [H|H]; cbn in H; lia|rewrite py_stride by (cbn; lia); reflexivity]]].
  intros ts. unfold runnable. cbn [pr_nl pr_nm pr_nlat pr_nphi pr_nx pr_l_ang pr_m_ang demo_params].
  repeat match goal with |- _ /\ _ => split end; try reflexivity; try lia; try (cbn; lia).
  - split; cbn; intros; auto; try (rewrite ?map_length, ?seq_length; reflexivity).
  - apply Nat.ltb_lt. vm_compute. reflexivity.
  - intros _. apply two_threads_deals.
  - intros _. apply two_threads_deals.
Qed.
End Example_.
