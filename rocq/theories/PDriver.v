(** The driver in closed form (any arithmetic): every quantity the loop of main.cpp carries, as a
    function of the initial data. *)
From Coq Require Import Ascii String Permutation.
From Verif Require Import Base BaseLemmas ForList Arith MFd MCheb MSphere MGrid MParams MField MEom MInit MIo MMain
  SphereSpec GridSpec RkSpec PGrid PTables PMake PSphere PSphere2 PGridOp PropTables PropGridOp PConc PEom PEomOk PRk PropRk PIo PInit PRed.
Local Open Scope nat_scope.

Section Reduce.
Context {F : Type} {AF : Arith F}.
Lemma thread_sum_total (step : nat -> F -> res F) its : (forall i a, In i its -> exists y, step i a = Ok y) -> exists x, thread_sum step its = Ok x.
Proof.
  intros H. unfold thread_sum. generalize (@f0 F _). induction its as [|i its IH]; intros a; cbn [fold_left]; [eauto|].
  cbn [bind]. destruct (H i a) as (y & ->); [now left|]. apply IH. intros j c Hj. apply H. now right.
Qed.
Lemma reduce_total (step : nat -> F -> res F) sched n init : deals sched n -> (forall i a, i < n -> exists y, step i a = Ok y) ->
  exists x, reduce step sched init = Ok x.
Proof.
  intros D H. assert (H' : forall i a, In i (concat sched) -> exists y, step i a = Ok y).
  { intros i a Hi. apply H. eapply Permutation_in in Hi; [|exact D]. apply in_seq in Hi. lia. }
  clear D H. unfold reduce. revert init. induction sched as [|its sched IH]; intros a; cbn [fold_left]; [eauto|]. cbn [bind].
  destruct (thread_sum_total step its) as (x & ->). { intros i c Hi. apply H'. cbn. apply in_or_app. now left. }
  cbn [bind]. apply IH. intros i c Hi. apply H'. cbn. apply in_or_app. now right.
Qed.
Lemma nir_total (g : grid F) sched dt f_n f_np1 p : length f_n = g_n3 g -> length f_np1 = g_n3 g -> length p = g_n3 g -> deals sched (g_n3 g) ->
  exists x, norm_indep_res g sched dt f_n f_np1 p = Ok x.
Proof.
  intros L1 L2 L3 D. unfold norm_indep_res. rewrite L1, L2, L3, !assert_true by apply Nat.eqb_refl. cbn [bind].
  destruct (reduce_total (nir_step dt f_n f_np1 p) sched (g_n3 g) f0 D) as (x & ->); [|cbn [bind]; eauto].
  intros i a Hi. unfold nir_step. rewrite (vget_ok p _ f0), (vget_ok f_np1 _ f0), (vget_ok f_n _ f0) by lia. cbn [bind]. eauto.
Qed.
Lemma tv_total (g : grid F) sched v : length v = g_n3 g -> 1 <= g_nlat g -> 1 <= g_nphi g -> deals sched (g_nx g - 1) ->
  exists x, total_variation g sched v = Ok x.
Proof.
  intros L H1 H2 D. unfold total_variation. rewrite assert_true by (rewrite L; apply Nat.eqb_refl). cbn [bind].
  destruct (reduce_total (tv_step g v) sched (g_nx g - 1) f0 D) as (x & ->); [|cbn [bind]; eauto].
  intros ix a Hi. unfold tv_step. rewrite !wsub_le by auto.
  assert (IN : forall ix it ip, ix < g_nx g -> it < g_nlat g -> ip < g_nphi g -> v.[indx_R_th_ph g ix it ip] = Ok (nth (indx_R_th_ph g ix it ip) v f0)).
  { intros. apply vget_ok. rewrite L. unfold g_n3. now apply ix_R_th_ph_lt. }
  match goal with |- exists y, for_ 0 ?n ?bd ?s = _ => destruct (for_inv (fun _ (_ : F) => True) 0 n bd s) as (y & E & _) end; eauto; [lia|].
  intros it c Hit _. cbv beta.
  match goal with |- exists y, for_ 0 ?n ?bd ?s = _ /\ _ => destruct (for_inv (fun _ (_ : F) => True) 0 n bd s) as (y & E & _) end; eauto; [lia|].
  intros ip d Hip _. cbv beta. rewrite !IN by lia. cbn [bind]. eauto.
Qed.
End Reduce.

Section RkExt.
Context {F : Type} {AF : Arith F}.
(** rk4 only evaluates its right-hand side on pairs of arrays of the common length *)
Lemma rk4_ext_len (r1 r2 : state F -> state F) dt u v n : length u = n -> length v = n ->
  (forall w, length (fst w) = n -> length (snd w) = n -> r1 w = r2 w /\ length (fst (r2 w)) = n /\ length (snd (r2 w)) = n) ->
  rk4 r1 dt (u, v) = rk4 r2 dt (u, v).
Proof.
  intros Lu Lv H. unfold rk4.
  assert (A : forall c k w, length (fst k) = n /\ length (snd k) = n -> length (fst w) = n /\ length (snd w) = n ->
     length (fst (axpy2 c k w)) = n /\ length (snd (axpy2 c k w)) = n).
  { intros c k w [] []. unfold axpy2. cbn [fst snd]. rewrite !(axpy_length _ _ _ n) by auto. auto. }
  assert (B : length (fst (u, v)) = n /\ length (snd (u, v)) = n) by auto.
  destruct (H (u, v)) as (E1 & L1); try apply B. rewrite E1.
  set (k1 := r2 (u, v)) in *. pose proof (A (fdec 5 (-1) * dt)%f k1 (u, v) L1 B) as C1.
  destruct (H (axpy2 (fdec 5 (-1) * dt)%f k1 (u, v))) as (E2 & L2); try apply C1. rewrite E2.
  set (k2 := r2 (axpy2 (fdec 5 (-1) * dt)%f k1 (u, v))) in *. pose proof (A (fdec 5 (-1) * dt)%f k2 (u, v) L2 B) as C2.
  destruct (H (axpy2 (fdec 5 (-1) * dt)%f k2 (u, v))) as (E3 & L3); try apply C2. rewrite E3.
  set (k3 := r2 (axpy2 (fdec 5 (-1) * dt)%f k2 (u, v))) in *. pose proof (A dt k3 (u, v) L3 B) as C3.
  destruct (H (axpy2 dt k3 (u, v))) as (E4 & L4); try apply C3. rewrite E4. reflexivity.
Qed.
End RkExt.

Section Driver.
Context {F : Type} {AF : Arith F}.
Variable fmt : F -> text.
Variables (sch_res sch_tv : nat -> list (list nat)).
Variables (b : build) (h : sht F) (cl0 Rmin0 Rmax0 : F) (nx : nat) (g : grid F).
Hypothesis Hg : grid_of b h cl0 Rmin0 Rmax0 nx g.
Hypothesis Hsh : shapes h.
Hypothesis HL : (Z.of_nat (s_lmax h) < 2 ^ 31)%Z.
Hypothesis H8 : use_cheb b = false -> 8 <= nx.
Hypothesis H2 : use_cheb b = true -> 2 <= nx.
Hypothesis Hla : 1 <= s_nlat h.
Hypothesis Hph : 1 <= s_nphi h.
Local Notation n := (g_n3 g).
Variable par : params F.
Hypothesis Hs : 1 <= pr_t_step_save par.
Hypothesis Dres : forall k, deals (sch_res k) n.
Hypothesis Dtv : forall k, deals (sch_tv k) (g_nx g - 1).
Variable dir : text.
Variable e : eom F.
Hypothesis Oe : eom_ok g e.
Local Notation stride := (pr_t_step_save par).

(** *** set_rho as a function of the two arrays *)
Definition rho_of (f p : list F) : list F := match set_rho g e f p (zero3 g) with Ok (r, _) => r | _ => [] end.
Lemma set_rho_ok s f p rho : scr_ok n s -> length f = n -> length p = n -> length rho = n ->
  exists s', set_rho g (with_scr e s) f p rho = Ok (rho_of f p, with_scr e s') /\ scr_ok n s' /\ length (rho_of f p) = n.
Proof.
  intros Os Lf Lp Lr.
  assert (K : forall e' rho, eom_ok g e' -> length rho = n ->
     set_rho g e' f p rho = let! r := for_ 0 n (fun i rho =>
       let! fi := f.[i] in let! c := (e_coef e').[i] in let! pi := p.[i] in
       let! x := (dr_of g f).[i] in let! y := (dphi_of g f).[i] in let! z := (sX_of g f).[i] in rho.[i <- rho_at e' c fi pi x y z]) rho in
       Ok (r, with_scr e' (let s := e_scr e' in Scr (dr_of g f) (s_lap_f s) (s_dr_p s) (s_dr_dr_f s) (dphi_of g f) (s_dphi_dr_f s) (sX_of g f)))).
  { intros e' rho' (En & Lc & (A1 & A2 & A3 & A4 & A5 & A6 & A7)) Lr'.
    destruct (ops_ok b h cl0 Rmin0 Rmax0 nx g Hg Hsh HL H8 H2 f (s_dr_f (e_scr e')) Lf A1) as (E1 & _).
    destruct (ops_ok b h cl0 Rmin0 Rmax0 nx g Hg Hsh HL H8 H2 f (s_dphi_f (e_scr e')) Lf A5) as (_ & _ & E4 & _).
    destruct (ops_ok b h cl0 Rmin0 Rmax0 nx g Hg Hsh HL H8 H2 f (s_sphereX_f (e_scr e')) Lf A7) as (_ & _ & _ & _ & E6 & _).
    unfold set_rho. rewrite En, Lf, Lp, Lr', Nat.eqb_refl. rewrite !assert_true by reflexivity. cbn [bind]. cbv zeta.
    rewrite E1; cbn [bind]. rewrite E4; cbn [bind]. rewrite E6; cbn [bind]. reflexivity. }
  assert (Oe' : eom_ok g (with_scr e s)) by (destruct Oe as (? & ? & _); unfold eom_ok; cbn; auto).
  assert (Lz : length (zero3 g) = n) by apply vec_length.
  destruct (set_rho_total b h cl0 Rmin0 Rmax0 nx g Hg Hsh HL H8 H2 (with_scr e s) f p rho Oe' Lf Lp Lr) as (r1 & e1 & E1 & L1).
  destruct (set_rho_total b h cl0 Rmin0 Rmax0 nx g Hg Hsh HL H8 H2 e f p (zero3 g) Oe Lf Lp Lz) as (r2 & e2 & E2 & L2).
  assert (R2 : rho_of f p = r2) by (unfold rho_of; now rewrite E2). rewrite R2.
  rewrite (K _ _ Oe' Lr) in E1. rewrite (K _ _ Oe Lz) in E2. inv_bind E1. inv_bind E2.
  assert (r1 = x) by congruence. assert (r2 = x0) by congruence. subst x x0.
  assert (EQ : r1 = r2).
  {
    assert (S1 : set_each n (fun i => let! fi := f.[i] in let! c := (e_coef e).[i] in let! pi := p.[i] in
       let! x := (dr_of g f).[i] in let! y := (dphi_of g f).[i] in let! z := (sX_of g f).[i] in Ok (rho_at e c fi pi x y z)) rho = Ok r1).
    { rewrite <- E. unfold set_each. apply for_ext. intros i s0 _. cbn [with_scr e_coef]. destruct (f.[i]); cbn [bind]; auto. destruct ((e_coef e).[i]); cbn [bind]; auto. destruct (p.[i]); cbn [bind]; auto.
      destruct ((dr_of g f).[i]); cbn [bind]; auto. destruct ((dphi_of g f).[i]); cbn [bind]; auto. destruct ((sX_of g f).[i]); cbn [bind]; auto. }
    assert (S2 : set_each n (fun i => let! fi := f.[i] in let! c := (e_coef e).[i] in let! pi := p.[i] in
       let! x := (dr_of g f).[i] in let! y := (dphi_of g f).[i] in let! z := (sX_of g f).[i] in Ok (rho_at e c fi pi x y z)) (zero3 g) = Ok r2).
    { rewrite <- E0. unfold set_each. apply for_ext. intros i s0 _. destruct (f.[i]); cbn [bind]; auto. destruct ((e_coef e).[i]); cbn [bind]; auto. destruct (p.[i]); cbn [bind]; auto.
      destruct ((dr_of g f).[i]); cbn [bind]; auto. destruct ((dphi_of g f).[i]); cbn [bind]; auto. destruct ((sX_of g f).[i]); cbn [bind]; auto. }
    destruct (set_each_cells _ _ _ _ S1) as (_ & A1 & _). destruct (set_each_cells _ _ _ _ S2) as (_ & A2 & _).
    apply (list_ext _ _ n); auto. intros i Hi. destruct (A1 i Hi) as (y1 & Y1 & ->). destruct (A2 i Hi) as (y2 & Y2 & ->). congruence. }
  rewrite (K _ _ Oe' Lr). rewrite E. cbn [bind]. eexists. split; [rewrite <- EQ; reflexivity|]. split; auto.
  destruct (ops_ok b h cl0 Rmin0 Rmax0 nx g Hg Hsh HL H8 H2 f f Lf Lf) as (_ & _ & _ & _ & _ & M1 & M2 & M3 & M4 & M5).
  destruct Os as (? & ? & ? & ? & ? & ? & ?). unfold scr_ok. cbn. auto 10.
Qed.

(** *** the two files of a save *)
(** the text write_R_psl appends for the values v *)
Definition r_text (v : list F) : text :=
  match set_angular_power_spectrum g v (vec (g_nx g * g_nl g) f0) with
  | Ok ps => match psl_body fmt (g_R_l g) ps with Ok t => header_R_l ++ t | _ => [] end
  | _ => [] end.
Definition wr_file (fs : fsys) (name : text) (k : nat) (v : list F) : fsys :=
  let fn := name_kind "RPsl" name (i32 (Z.of_nat k)) in if fs_can fs fn then fs_append fs fn (r_text v) else fs.
Lemma wr_file_ok fs name k v : length v = n -> write_R_psl fmt fs g name true (i32 (Z.of_nat k)) v = Ok (wr_file fs name k v).
Proof.
  intros Lv. destruct (write_R_psl_ok fmt b h cl0 Rmin0 Rmax0 nx g Hg Hsh fs name true (i32 (Z.of_nat k)) v Lv) as (ps & rows & E & _ & _ & EW & _).
  destruct (write_R_psl_ok fmt b h cl0 Rmin0 Rmax0 nx g Hg Hsh (Fs (fs_file fs) (fun _ => true)) name true (i32 (Z.of_nat k)) v Lv) as (ps' & rows' & E' & _ & _ & EW' & _).
  unfold write_R_psl in *. unfold wr_file, r_text. rewrite E in *. cbn [bind fs_can] in *. inv_bind EW'. rewrite E0. cbn [bind] in *. destruct (fs_can fs _); auto.
Qed.
Definition f_name : text := dir ++ txt "/" ++ txt "f".
Definition rho_name : text := dir ++ txt "/rho".
Definition put (u : state F) (k : nat) (fs : fsys) : fsys :=
  wr_file (wr_file fs f_name k (fst u)) rho_name k (rho_of (fst u) (snd u)).

Lemma save_state_ok t r tv k st s : ms_eom st = with_scr e s -> scr_ok n s -> field_ok g (ms_f st) -> field_ok g (ms_p st) ->
  fl_name (ms_f st) = txt "f" -> length (ms_rho st) = n -> let u := (fl_np1 (ms_f st), fl_np1 (ms_p st)) in
  exists s', save_state fmt g dir t r tv k st =
    Ok (Ms (ms_f st) (ms_p st) (rho_of (fst u) (snd u)) (with_scr e s') (put u k (ms_fs st)) k (ms_log st ++ [(t, r, tv)])) /\ scr_ok n s' /\
    length (rho_of (fst u) (snd u)) = n.
Proof.
  intros Ee Os (_ & _ & _ & Lf & _) (_ & _ & _ & Lp & _) Nf Lr u. unfold save_state. rewrite Ee.
  destruct (set_rho_ok s (fl_np1 (ms_f st)) (fl_np1 (ms_p st)) (ms_rho st) Os Lf Lp Lr) as (s' & E & Os' & Lr'). rewrite E. cbn [bind].
  rewrite Nf. fold f_name. fold rho_name. rewrite wr_file_ok by auto. cbn [bind]. rewrite wr_file_ok by auto. cbn [bind].
  exists s'. auto.
Qed.

(** *** one step of the evolution, and its iterates *)
Definition advance (u : state F) : state F := rk4 (rhs_of g e) (e_dt e) (filt_of g (fst u), filt_of g (snd u)).
Definition U (u0 : state F) (j : nat) : state F := Nat.iter j advance u0.
Fixpoint saves (u0 : state F) (K : nat) (fs : fsys) : fsys :=
  match K with O => put u0 0 fs | S K' => put (U u0 (K * stride)) K (saves u0 K' fs) end.
Definition save_time (k : nat) : F := match k with O => f0 | _ => (pr_dt par * fnat (k * stride))%f end.

(** the diagnostics line number k: residual and total variation of the state saved then *)
Definition entry (u0 : state F) (k : nat) (x : F * F * F) : Prop :=
  let j := k * stride in let prev := match k with O => u0 | _ => (filt_of g (fst (U u0 (j - 1))), filt_of g (snd (U u0 (j - 1)))) end in
  fst (fst x) = save_time k /\
  norm_indep_res g (sch_res k) (pr_dt par) (fst prev) (fst (U u0 j)) (snd prev) = Ok (snd (fst x)) /\
  total_variation g (sch_tv k) (fst (U u0 j)) = Ok (snd x).

Definition inv (u0 : state F) (fs0 : fsys) (j : nat) (st : mstate F) : Prop :=
  (exists s, ms_eom st = with_scr e s /\ scr_ok n s) /\
  field_ok g (ms_f st) /\ field_ok g (ms_p st) /\ fl_name (ms_f st) = txt "f" /\
  (fl_n (ms_f st), fl_n (ms_p st)) = U u0 j /\ (fl_np1 (ms_f st), fl_np1 (ms_p st)) = U u0 j /\
  length (ms_rho st) = n /\ ms_save st = j / stride /\ ms_fs st = saves u0 (j / stride) fs0 /\
  length (ms_log st) = S (j / stride) /\ (forall k x, nth_error (ms_log st) k = Some x -> entry u0 k x).

Lemma iter_ok u0 fs0 j st : inv u0 fs0 j st ->
  exists st', main_iter fmt sch_res sch_tv g par dir (S j) st = Ok st' /\ inv u0 fs0 (S j) st'.
Proof.
  intros ((s & Ee & Os) & Of & Op & Nf & En & Enp1 & Lr & Esv & Efs & Llog & Elog).
  destruct (gof_sizes b h cl0 Rmin0 Rmax0 nx g Hg) as (Eb & Enx & _ & El & Eph & _).
  unfold main_iter. rewrite Ee.
  assert (Oe' : eom_ok g (with_scr e s)) by (destruct Oe as (? & ? & _); unfold eom_ok; cbn; auto).
  destruct (time_step_closed b h cl0 Rmin0 Rmax0 nx g Hg Hsh HL H8 H2 (with_scr e s) (ms_f st) (ms_p st) Oe' Of Op)
    as (f' & p' & s' & E & Os' & Of' & Op' & Fn & Pn & Nf' & Np' & RK).
  rewrite E. cbn [bind]. rewrite with_scr_twice. cbn [with_scr e_dt] in RK.
  assert (RHS : rhs_of g (with_scr e s) = rhs_of g e \/ True) by auto. clear RHS.
  assert (RK' : (fl_np1 f', fl_np1 p') = U u0 (S j)).
  { rewrite RK. change (U u0 (S j)) with (advance (U u0 j)). rewrite <- En. unfold advance. cbn [fst snd].
    apply rk4_ext_len with (n := n).
    - apply filter_total with (b := b) (h := h) (cl0 := cl0) (Rmin0 := Rmin0) (Rmax0 := Rmax0) (nx := nx); auto; apply Of.
    - apply filter_total with (b := b) (h := h) (cl0 := cl0) (Rmin0 := Rmin0) (Rmax0 := Rmax0) (nx := nx); auto; apply Op.
    - intros [x y] Lx Ly. cbn [fst snd] in *. unfold rhs_of. cbn [fst snd]. unfold prhs_of.
      assert (Lz : length (zero3 g) = n) by apply vec_length.
      destruct (set_k_ok b h cl0 Rmin0 Rmax0 nx g Hg Hsh HL H8 H2 e s x y (zero3 g) (zero3 g) Oe Os Lx Ly Lz Lz) as [-> L'].
      unfold prhs_of in *. auto. }
  assert (DIV : if Nat.eqb (S j mod stride) 0 then S j / stride = S (j / stride) /\ S j = S (j / stride) * stride else S j / stride = j / stride).
  { pose proof (Nat.div_mod j stride ltac:(lia)) as D1. pose proof (Nat.mod_upper_bound j stride ltac:(lia)) as D2.
    pose proof (Nat.div_mod (S j) stride ltac:(lia)) as D3. pose proof (Nat.mod_upper_bound (S j) stride ltac:(lia)) as D4.
    destruct (Nat.eq_dec (S (j mod stride)) stride) as [Q|Q].
    - assert (X : S j = stride * S (j / stride) + 0) by (rewrite Nat.mul_succ_r; lia).
      rewrite <- (Nat.mod_unique (S j) stride (S (j / stride)) 0 ltac:(lia) X), <- (Nat.div_unique (S j) stride (S (j / stride)) 0 ltac:(lia) X). cbn [Nat.eqb]. split; auto. rewrite Nat.mul_comm. lia.
    - assert (X : S j = stride * (j / stride) + S (j mod stride)) by lia.
      rewrite <- (Nat.mod_unique (S j) stride (j / stride) (S (j mod stride)) ltac:(lia) X), <- (Nat.div_unique (S j) stride (j / stride) (S (j mod stride)) ltac:(lia) X). reflexivity. }
  destruct (Nat.eqb_spec stride 0) as [Z|_]; [lia|].
  set (st1 := Ms f' p' (ms_rho st) (with_scr e s') (ms_fs st) (ms_save st) (ms_log st)).
  assert (SH : forall st2, ms_f st2 = f' -> ms_p st2 = p' -> exists f2 p2, shift (ms_f st2) = Ok f2 /\ shift (ms_p st2) = Ok p2 /\
     field_ok g f2 /\ field_ok g p2 /\ fl_name f2 = txt "f" /\ (fl_n f2, fl_n p2) = U u0 (S j) /\ (fl_np1 f2, fl_np1 p2) = U u0 (S j)).
  { intros st2 -> ->. destruct Of' as (S1 & K1 & K2 & K3 & K4). destruct Op' as (T1 & M1 & M2 & M3 & M4).
    rewrite !C46_shift by congruence. do 2 eexists. split; [reflexivity|]. split; [reflexivity|]. cbn [with_n fl_n fl_l fl_np1 fl_k fl_name fl_size].
    unfold field_ok. cbn [with_n fl_n fl_l fl_np1 fl_k fl_name fl_size]. rewrite Nf', Nf. auto 20. }
  destruct (Nat.eqb (S j mod stride) 0) eqn:MOD.
  - destruct DIV as [DV DM]. change (ms_save st1) with (ms_save st). rewrite Esv, Nat.add_1_r.
    destruct (nir_total g (sch_res (S (j / stride))) (pr_dt par) (fl_n f') (fl_np1 f') (fl_n p')) as (r & Enr); [try apply Of'; try apply Op'; auto..|]; rewrite Enr; try apply Of'; try apply Op'; auto. cbn [bind].
    destruct (tv_total g (sch_tv (S (j / stride))) (fl_np1 f')) as (tv & Etv); [try apply Of'; auto; try lia..|]. rewrite Etv. cbn [bind].
    destruct (save_state_ok (pr_dt par * fnat (S j))%f r tv (S (j / stride)) st1 s') as (s2 & E2 & Os2 & Lr2); auto; [change (fl_name f' = txt "f"); congruence|].
    rewrite E2. cbn [bind]. cbn [ms_f ms_p ms_rho ms_eom ms_fs ms_save ms_log st1].
    destruct (SH st1) as (f2 & p2 & S1 & S2 & O1 & O2 & N1 & Q1 & Q2); auto. cbn [st1 ms_f ms_p] in S1, S2. rewrite S1. cbn [bind]. rewrite S2. cbn [bind].
    eexists. split; [reflexivity|]. unfold inv. cbn [ms_f ms_p ms_rho ms_eom ms_fs ms_save ms_log].
    split; [eauto|]. split; auto. split; auto. split; auto. split; auto. split; auto. split; auto. split; auto. split.
    + rewrite Efs, DV. cbn [saves]. rewrite <- DM. f_equal. exact RK'.
    + rewrite app_length, Llog, DV. cbn [length]. split; [lia|]. intros k x Hx.
      destruct (Nat.lt_ge_cases k (length (ms_log st))) as [Hk|Hk]; [rewrite nth_error_app1 in Hx by auto; now apply Elog|].
      rewrite nth_error_app2 in Hx by auto. assert (k = length (ms_log st)).
      { assert (Hn : nth_error [((pr_dt par * fnat (S j))%f, r, tv)] (k - length (ms_log st)) <> None) by congruence. apply nth_error_Some in Hn. cbn in Hn. lia. }
      subst k. rewrite Nat.sub_diag in Hx. injection Hx as <-. rewrite Llog. unfold entry. cbn [fst snd save_time]. cbv zeta. rewrite <- DM.
      split; [reflexivity|]. replace (S j - 1) with j by lia. rewrite <- RK', <- En. cbn [fst snd]. rewrite <- Fn, <- Pn. auto.
  - cbn [bind]. destruct (SH st1) as (f2 & p2 & S1 & S2 & O1 & O2 & N1 & Q1 & Q2); auto. rewrite S1. cbn [bind]. rewrite S2. cbn [bind].
    eexists. split; [reflexivity|]. unfold inv. cbn [ms_f ms_p ms_rho ms_eom ms_fs ms_save ms_log st1]. rewrite DIV.
    split; [eauto|]. repeat (split; [solve [auto]|]). auto.
Qed.
Theorem loop_ok u0 fs0 st0 : inv u0 fs0 0 st0 -> forall J, 1 <= J -> exists st, for_ 1 J (main_iter fmt sch_res sch_tv g par dir) st0 = Ok st /\ inv u0 fs0 (J - 1) st.
Proof.
  intros I0 J HJ. destruct (for_inv (fun i st => inv u0 fs0 (i - 1) st) 1 J (main_iter fmt sch_res sch_tv g par dir) st0) as (st & E & I); eauto.
  intros i st Hi I. destruct i as [|j]; [lia|]. cbn [Nat.sub] in I |- *. rewrite Nat.sub_0_r in I. apply iter_ok; auto.
Qed.
End Driver.
