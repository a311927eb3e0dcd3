(** * C89: a run killed at any moment. *)
From Coq Require Import Ascii String Permutation Reals Lra Lia.
From Verif Require Import Base BaseLemmas ForList Arith MFd MCheb MSphere MGrid MParams MField MEom MInit MIo MMain MSim MCrash
  SphereSpec GridSpec RkSpec PGrid PTables PMake PSphere PSphere2 PGridOp PropTables PropGridOp PConc PEom PEomOk PRk PropRk PText PIo PropIo PInit PRed PDriver PropDriver.
Local Open Scope nat_scope.
Local Open Scope list_scope.

Section C89.
Context {F : Type} {AF : Arith F}.
Variable fmt : F -> text.
Variable stod_ : text -> option F.
Variables (sch_res sch_tv : nat -> list (list nat)).
Variable b : build.
Variable lib : nat -> nat -> nat -> nat -> sht F.

Lemma play_app fs a c : play fs (a ++ c) = play (play fs a) c.
Proof. apply fold_left_app. Qed.
Lemma play_can fs evs : fs_can (play fs evs) = fs_can fs.
Proof. revert fs. induction evs as [|ev evs IH]; intros fs; [reflexivity|]. cbn [play fold_left]. etransitivity; [apply IH|reflexivity]. Qed.
Lemma psl_play fs g name k v : write_R_psl fmt fs g name true k v =
  match psl_events fmt (fs_can fs) g name k v with Ok evs => Ok (play fs evs) | UB => UB | Abort => Abort | Throw => Throw | Exit c => Exit c end.
Proof.
  unfold write_R_psl, psl_events. destruct (set_angular_power_spectrum _ _ _); cbn [bind]; auto. destruct (fs_can fs _); [|reflexivity].
  destruct (psl_body _ _ _); reflexivity.
Qed.
Lemma save_play g dir t r tv k st st' : save_state fmt g dir t r tv k st = Ok st' ->
  exists evs, save_events fmt (fs_can (ms_fs st)) g dir k (ms_f st) (ms_p st) (ms_rho st) (ms_eom st) = Ok evs /\ ms_fs st' = play (ms_fs st) evs.
Proof.
  intros H. unfold save_state in H. unfold save_events. inv_bind H. destruct x as [rho e]. rewrite E. cbn [bind]. inv_bind H. inv_bind H. injection H as <-.
  rewrite psl_play in E0. destruct (psl_events fmt (fs_can (ms_fs st)) g (dir ++ txt "/" ++ fl_name (ms_f st)) _ _) as [a| | | |]; try discriminate. injection E0 as <-. cbn [bind].
  rewrite psl_play, play_can in E1. destruct (psl_events fmt (fs_can (ms_fs st)) g (dir ++ txt "/rho") _ _) as [c| | | |]; try discriminate. injection E1 as <-. cbn [bind].
  exists (a ++ c). cbn [ms_fs]. now rewrite play_app.
Qed.
Lemma iter_play g par dir i st st' : main_iter fmt sch_res sch_tv g par dir i st = Ok st' ->
  exists evs, iter_events fmt g par dir i st = Ok evs /\ ms_fs st' = play (ms_fs st) evs.
Proof.
  intros H. unfold main_iter in H. unfold iter_events. inv_bind H. destruct x as [[f p] e]. rewrite E. cbn [bind]. inv_bind H. inv_bind H. inv_bind H. injection H as <-. cbn [ms_fs].
  destruct (Nat.eqb _ 0); [discriminate|]. destruct (Nat.eqb _ 0).
  - inv_bind E0. inv_bind E0. apply save_play in E0. exact E0.
  - injection E0 as <-. exists []. auto.
Qed.
Lemma init_play file dir fs par g st : main_init fmt stod_ sch_res sch_tv b lib file dir fs = Ok (par, g, st) ->
  exists evs, init_events fmt stod_ b lib file dir fs = Ok evs /\ ms_fs st = play fs evs.
Proof.
  intros E. unfold main_init in E. unfold init_events. inv_bind E. rewrite E0. cbn [bind]. cbv zeta in *. inv_bind E. rewrite E1. cbn [bind]. inv_bind E. rewrite E2. cbn [bind].
  inv_bind E. rewrite E3. cbn [bind]. destruct x2 as [fn pn]. inv_bind E. rewrite E4. cbn [bind]. destruct x2 as [fp pp].
  inv_bind E. inv_bind E. inv_bind E. injection E as <- <- <-. apply save_play in E7. exact E7.
Qed.
(** the trace describes the driver: a run that ends normally leaves what its appends, played in order, leave *)
Theorem C89_trace file dir fs st : main fmt stod_ sch_res sch_tv b lib file dir fs = Ok st ->
  exists evs, main_events fmt stod_ sch_res sch_tv b lib file dir fs = Ok evs /\ ms_fs st = play fs evs.
Proof.
  intros H. unfold main in H. unfold main_events. inv_bind H. destruct x as [[par g] st0]. rewrite E. cbn [bind]. apply init_play in E. destruct E as (ev0 & -> & E0). cbn [bind].
  rewrite for_as_list in H. rewrite for_as_list. revert st0 ev0 E0 H. induction (seq 1 (pr_nt par - 1)) as [|i l IH]; intros st0 ev0 E0 H.
  - cbn [for_list bind] in *. assert (st0 = st) by congruence. subst st0. exists ev0. auto.
  - cbn [for_list] in *. inv_bind H. pose proof E as E'. apply iter_play in E'. destruct E' as (ev & E1 & E2). rewrite E1. cbn [bind]. rewrite E. cbn [bind].
    apply IH; auto. now rewrite play_app, <- E0.
Qed.

(** *** the appends in closed form *)
Section Closed.
Variables (h : sht F) (cl0 Rmin0 Rmax0 : F) (nx : nat) (g : grid F).
Hypothesis Hg : grid_of b h cl0 Rmin0 Rmax0 nx g.
Hypothesis Hsh : shapes h.
Hypothesis HL : (Z.of_nat (s_lmax h) < 2 ^ 31)%Z.
Hypothesis H8 : use_cheb b = false -> 8 <= nx.
Hypothesis H2 : use_cheb b = true -> 2 <= nx.
Hypothesis Hla : 1 <= s_nlat h.
Hypothesis Hph : 1 <= s_nphi h.
Local Notation n := (g_n3 g).
Variable par : params F.
Hypothesis Hs : 1 <= pr_t_step_save par.
Hypothesis Dres : forall k, deals (sch_res k) n.
Hypothesis Dtv : forall k, deals (sch_tv k) (g_nx g - 1).
Variable dir : text.
Variable e : eom F.
Hypothesis Oe : eom_ok g e.
Local Notation stride := (pr_t_step_save par).

Lemma psl_closed can name k v : length v = n -> can (name_kind "RPsl" name k) = true -> psl_events fmt can g name k v = Ok [(name_kind "RPsl" name k, r_text fmt g v)].
Proof.
  intros Lv C. destruct (write_R_psl_ok fmt b h cl0 Rmin0 Rmax0 nx g Hg Hsh (Fs (fun _ => None) can) name true k v Lv) as (ps & rows & E & _ & _ & EW & _).
  unfold psl_events, r_text. unfold write_R_psl in EW. rewrite E in *. cbn [bind fs_can] in *. rewrite C in *. inv_bind EW. rewrite E0. reflexivity.
Qed.
Definition two (u : state F) (k : nat) : list append_ev := [(f_file dir k, r_text fmt g (fst u)); (rho_file dir k, r_text fmt g (rho_of g e (fst u) (snd u)))].
Lemma save_closed can k f p rho s : (Z.of_nat k < 2 ^ 31)%Z -> can (f_file dir k) = true -> can (rho_file dir k) = true -> scr_ok n s -> field_ok g f -> field_ok g p -> fl_name f = txt "f" -> length rho = n ->
  save_events fmt can g dir k f p rho (with_scr e s) = Ok (two (fl_np1 f, fl_np1 p) k).
Proof.
  intros Hk C1 C2 Os (_ & _ & _ & Lf & _) (_ & _ & _ & Lp & _) Nf Lr. unfold save_events.
  destruct (set_rho_ok b h cl0 Rmin0 Rmax0 nx g Hg Hsh HL H8 H2 e Oe s (fl_np1 f) (fl_np1 p) rho Os Lf Lp Lr) as (s' & E & _ & Lr'). rewrite E. cbn [bind].
  rewrite i32_id by auto. rewrite Nf. change (dir ++ txt "/" ++ txt "f") with (dir ++ txt "/f"). rewrite !psl_closed; auto.
Qed.
Lemma iter_closed u0 fs0 j st : inv fmt sch_res sch_tv g par dir e u0 fs0 j st -> (Z.of_nat (S j) < 2 ^ 31)%Z ->
  (forall k, k * stride <= S j -> fs_can fs0 (f_file dir k) = true /\ fs_can fs0 (rho_file dir k) = true) ->
  (forall fn, fs_can (ms_fs st) fn = fs_can fs0 fn) ->
  iter_events fmt g par dir (S j) st = Ok (if Nat.eqb (S j mod stride) 0 then two (U g e u0 (S j)) (S j / stride) else []) /\
  (S j mod stride = 0 -> S j / stride = S (j / stride) /\ S j / stride * stride = S j) /\ (S j mod stride <> 0 -> S j / stride = j / stride).
Proof.
  intros I Hj HC Hcan.
  destruct (iter_ok fmt sch_res sch_tv b h cl0 Rmin0 Rmax0 nx g Hg Hsh HL H8 H2 Hla Hph par Hs Dres Dtv dir e Oe u0 fs0 j st I) as (st' & EI & I').
  assert (DIV : (S j mod stride = 0 -> S j / stride = S (j / stride) /\ S j / stride * stride = S j) /\ (S j mod stride <> 0 -> S j / stride = j / stride)).
  { pose proof (Nat.div_mod j stride ltac:(lia)) as D1. pose proof (Nat.mod_upper_bound j stride ltac:(lia)) as D2.
    destruct (Nat.eq_dec (S (j mod stride)) stride) as [Q|Q].
    - assert (X : S j = stride * S (j / stride) + 0) by (rewrite Nat.mul_succ_r; lia).
      rewrite <- (Nat.mod_unique (S j) stride (S (j / stride)) 0 ltac:(lia) X), <- (Nat.div_unique (S j) stride (S (j / stride)) 0 ltac:(lia) X). split; [|lia]. intros _. split; auto. rewrite Nat.mul_comm. lia.
    - assert (X : S j = stride * (j / stride) + S (j mod stride)) by lia.
      rewrite <- (Nat.mod_unique (S j) stride (j / stride) (S (j mod stride)) ltac:(lia) X), <- (Nat.div_unique (S j) stride (j / stride) (S (j mod stride)) ltac:(lia) X). split; [lia|auto]. }
  split; [|exact DIV]. destruct I as ((s & Ee & Os) & Of & Op & Nf & En & Enp1 & Lr & Esv & Efs & _).
  assert (Oe' : eom_ok g (with_scr e s)) by (destruct Oe as (? & ? & _); unfold eom_ok; cbn; auto).
  destruct (time_step_closed b h cl0 Rmin0 Rmax0 nx g Hg Hsh HL H8 H2 (with_scr e s) (ms_f st) (ms_p st) Oe' Of Op)
    as (f' & p' & s' & E & Os' & Of' & Op' & Fn & Pn & Nf' & Np' & RK).
  assert (EU : (fl_np1 f', fl_np1 p') = U g e u0 (S j)).
  { destruct I' as (_ & _ & _ & _ & _ & I2 & _). rewrite <- I2. unfold main_iter in EI. rewrite Ee, E in EI. cbn [bind] in EI. inv_bind EI. inv_bind EI. inv_bind EI. injection EI as <-. cbn [ms_f ms_p].
    assert (K : ms_f x = f' /\ ms_p x = p').
    { destruct (Nat.eqb stride 0); [discriminate|]. destruct (Nat.eqb _ 0); [|injection E0 as <-; auto]. inv_bind E0. inv_bind E0. unfold save_state in E0. inv_bind E0. destruct x4 as [rh e3]. inv_bind E0. inv_bind E0. injection E0 as <-. auto. }
    destruct K as [-> ->] in E1, E2. unfold shift in E1, E2. inv_bind E1. inv_bind E2. injection E1 as <-. injection E2 as <-. reflexivity. }
  unfold iter_events. rewrite Ee, E. cbn [bind]. destruct (Nat.eqb_spec stride 0) as [Z|_]; [lia|]. destruct (Nat.eqb_spec (S j mod stride) 0) as [M|M]; [|reflexivity].
  destruct DIV as [DV _]. destruct (DV M) as [D1 D2]. rewrite Esv, Nat.add_1_r, <- D1. rewrite with_scr_twice.
  rewrite save_closed; auto.
  - now rewrite EU.
  - assert (S j / stride <= S j) by (apply Nat.div_le_upper_bound; nia). lia.
  - rewrite Hcan. apply HC. lia.
  - rewrite Hcan. apply HC. lia.
  - congruence.
Qed.
Fixpoint all_two (u0 : state F) (K : nat) : list append_ev := match K with O => two u0 0 | S K' => all_two u0 K' ++ two (U g e u0 (K * stride)) K end.
Lemma loop_closed u0 fs0 st0 : inv fmt sch_res sch_tv g par dir e u0 fs0 0 st0 -> (forall fn, fs_can (ms_fs st0) fn = fs_can fs0 fn) -> forall J, (Z.of_nat J < 2 ^ 31)%Z ->
  (forall k, k * stride <= J -> fs_can fs0 (f_file dir k) = true /\ fs_can fs0 (rho_file dir k) = true) ->
  exists st, for_ 1 (1 + J) (fun i s => let '(st, evs) := s in let! ev := iter_events fmt g par dir i st in
     let! st := main_iter fmt sch_res sch_tv g par dir i st in Ok (st, evs ++ ev)) (st0, two u0 0) = Ok (st, all_two u0 (J / stride)).
Proof.
  intros I0 C0 J HJ HC.
  destruct (for_inv (fun i s => inv fmt sch_res sch_tv g par dir e u0 fs0 (i - 1) (fst s) /\ (forall fn, fs_can (ms_fs (fst s)) fn = fs_can fs0 fn) /\ snd s = all_two u0 ((i - 1) / stride)) 1 (1 + J)
    (fun i s => let '(st, evs) := s in let! ev := iter_events fmt g par dir i st in
     let! st := main_iter fmt sch_res sch_tv g par dir i st in Ok (st, evs ++ ev)) (st0, two u0 0)) as ([st evs] & E & I1 & I2 & I3).
  - lia.
  - cbn [fst snd Nat.sub]. rewrite Nat.div_0_l by lia. auto.
  - intros [|j] [st evs] Hi (I & C & Ev); [lia|]. cbn [fst snd] in *. subst evs. replace (S j - 1) with j in * by lia. replace (S (S j) - 1) with (S j) by lia.
    destruct (iter_closed u0 fs0 j st I ltac:(lia)) as (E & D1 & D2); auto; [intros k Hk; apply HC; lia|]. rewrite E. cbn [bind].
    destruct (iter_ok fmt sch_res sch_tv b h cl0 Rmin0 Rmax0 nx g Hg Hsh HL H8 H2 Hla Hph par Hs Dres Dtv dir e Oe u0 fs0 j st I) as (st' & EI & I'). rewrite EI. cbn [bind].
    eexists. split; [reflexivity|]. cbn [fst snd]. split; auto. apply iter_play in EI. destruct EI as (evs & EE & Ep). split; [intros fn; rewrite Ep, play_can; auto|].
    destruct (Nat.eqb_spec (S j mod stride) 0) as [M|M].
    + destruct (D1 M) as [Q1 Q2]. rewrite Q1. cbn [all_two]. rewrite <- Q1, Q2. reflexivity.
    + rewrite (D2 M), app_nil_r. reflexivity.
  - cbn [snd] in I3. exists st. rewrite E, I3. replace (1 + J - 1) with J by lia. reflexivity.
Qed.
End Closed.

(** *** playing appends to distinct files *)
Lemma play_cons fs n t evs : play fs ((n, t) :: evs) = play (fs_append fs n t) evs.
Proof. reflexivity. Qed.
Lemma append_same fs n t : fs_file (fs_append fs n t) n = Some (contents fs n ++ t).
Proof. cbn [fs_append fs_file]. unfold text_eqb. destruct (list_eq_dec ascii_dec n n); [reflexivity|contradiction]. Qed.
Lemma append_other fs n t fn : fn <> n -> fs_file (fs_append fs n t) fn = fs_file fs fn.
Proof. intros N. cbn [fs_append fs_file]. unfold text_eqb. destruct (list_eq_dec ascii_dec fn n); [contradiction|reflexivity]. Qed.
Lemma play_out fs evs fn : ~ In fn (map fst evs) -> fs_file (play fs evs) fn = fs_file fs fn.
Proof.
  revert fs. induction evs as [|[n2 t2] evs IH]; intros fs1 HN; [reflexivity|]. rewrite play_cons. rewrite IH by (intros X; apply HN; now right).
  apply append_other. intros ->. apply HN. now left.
Qed.
Lemma play_in fs evs fn t : NoDup (map fst evs) -> In (fn, t) evs -> fs_file (play fs evs) fn = Some (contents fs fn ++ t).
Proof.
  revert fs. induction evs as [|[n0 t0] evs IH]; intros fs ND HI; [destruct HI|]. cbn [map fst] in ND. inversion ND; subst. rewrite play_cons.
  destruct HI as [HI|HI].
  - injection HI as -> ->. rewrite play_out by auto. apply append_same.
  - rewrite IH by auto. unfold contents. rewrite append_other; auto. intros ->. apply H1. apply in_map_iff. exists (n0, t). auto.
Qed.
(** the m-th append of a run: f of save 0, rho of save 0, f of save 1, ... *)
Definition evn (g : grid F) (par : params F) (dir : text) (e : eom F) (u0 : state F) (m : nat) : append_ev :=
  let k := Nat.div2 m in let u := U g e u0 (k * pr_t_step_save par) in
  if Nat.even m then (f_file dir k, r_text fmt g (fst u)) else (rho_file dir k, r_text fmt g (rho_of g e (fst u) (snd u))).
Lemma even_double k : Nat.even (2 * k) = true /\ Nat.even (S (2 * k)) = false /\ Nat.div2 (2 * k) = k /\ Nat.div2 (S (2 * k)) = k.
Proof. split; [apply Nat.even_mul|]. split; [rewrite Nat.even_succ, <- Nat.negb_even, Nat.even_mul; reflexivity|]. split; [apply Nat.div2_double|apply Nat.div2_succ_double]. Qed.
Lemma all_two_evn g par dir e u0 K : all_two g par dir e u0 K = map (evn g par dir e u0) (seq 0 (2 * S K)).
Proof.
  assert (TW : forall k, two g dir e (U g e u0 (k * pr_t_step_save par)) k = map (evn g par dir e u0) [2 * k; S (2 * k)]).
  { intros k. unfold evn, two. cbn [map]. destruct (even_double k) as (-> & -> & -> & ->). reflexivity. }
  induction K as [|K IH]; [exact (TW 0)|]. cbn [all_two]. rewrite IH, (TW (S K)). replace (2 * S (S K)) with (2 * S K + 2) by lia. rewrite seq_app, map_app. reflexivity.
Qed.
Lemma evn_inj g par dir e u0 m m' : fst (evn g par dir e u0 m) = fst (evn g par dir e u0 m') -> m = m'.
Proof.
  unfold evn. cbv zeta. pose proof (Nat.div2_odd m) as D. pose proof (Nat.div2_odd m') as D'. rewrite <- !Nat.negb_even in D, D'.
  destruct (Nat.even m), (Nat.even m'); cbn [fst negb Nat.b2n] in *; intros E; destruct (files_distinct stod_ sch_res sch_tv lib dir (Nat.div2 m) (Nat.div2 m')) as [A B]; destruct (files_distinct stod_ sch_res sch_tv lib dir (Nat.div2 m') (Nat.div2 m)) as [A' B'].
  - destruct (Nat.eq_dec (Nat.div2 m) (Nat.div2 m')) as [Q|Q]; [lia|]. destruct (B Q). contradiction.
  - contradiction.
  - symmetry in E. contradiction.
  - destruct (Nat.eq_dec (Nat.div2 m) (Nat.div2 m')) as [Q|Q]; [lia|]. destruct (B Q). contradiction.
Qed.
Lemma prefix_map {A} (f : nat -> A) n d t : map f (seq 0 n) = d ++ t -> d = map f (seq 0 (length d)) /\ length d <= n.
Proof.
  intros E. assert (L : length d <= n) by (apply (f_equal (@length A)) in E; rewrite map_length, seq_length, app_length in E; lia). split; [|exact L].
  replace n with (length d + (n - length d)) in E by lia. rewrite seq_app, map_app in E.
  assert (E2 : firstn (length d) (d ++ t) = d) by (rewrite firstn_app, Nat.sub_diag, firstn_all; apply app_nil_r).
  rewrite <- E2 at 1. rewrite <- E. rewrite firstn_app, map_length, seq_length, Nat.sub_diag. cbn [firstn]. rewrite app_nil_r. apply firstn_all2. now rewrite map_length, seq_length.
Qed.

(** how far file number m has got when [done] files are complete: old contents kept, then all, none, or a part of the text *)
Definition progress (fs fs' : fsys) (done m : nat) (fn t : text) : Prop :=
  (m < done -> fs_file fs' fn = Some (contents fs fn ++ t)) /\
  (done < m -> fs_file fs' fn = fs_file fs fn) /\
  (m = done -> fs_file fs' fn = fs_file fs fn \/ exists a c, t = a ++ c /\ fs_file fs' fn = Some (contents fs fn ++ a)).

Theorem C89_killed par file dir fs : Params_make stod_ b file = Ok par -> runnable sch_res sch_tv b lib par -> 1 <= pr_t_step_save par -> (Z.of_nat (pr_nt par) < 2 ^ 31)%Z ->
  (forall k, saved par k -> fs_can fs (f_file dir k) = true /\ fs_can fs (rho_file dir k) = true) ->
  exists g e u0 step rho evs st, set_up b lib par g e u0 /\ is_step g e step /\ is_rho g e rho /\
    main_events fmt stod_ sch_res sch_tv b lib file dir fs = Ok evs /\ main fmt stod_ sch_res sch_tv b lib file dir fs = Ok st /\ ms_fs st = play fs evs /\
    forall fs', killed fs evs fs' -> exists done,
      (forall k, saved par k -> let u := Nat.iter (k * pr_t_step_save par) step u0 in
         exists tf tr, is_text fmt g (fst u) tf /\ is_text fmt g (rho u) tr /\
           progress fs fs' done (2 * k) (f_file dir k) tf /\ progress fs fs' done (2 * k + 1) (rho_file dir k) tr) /\
      (forall fn, (forall k, saved par k -> fn <> f_file dir k /\ fn <> rho_file dir k) -> fs_file fs' fn = fs_file fs fn).
Proof.
  intros HP Hr Hs Hnt HC. destruct (run_init fmt stod_ sch_res sch_tv b lib par file dir fs HP Hr) as (g & e & u0 & st0 & SU & EI & Hg & Oe & N3 & Nx & L1 & L2 & I0).
  pose proof Hr as (Q1 & Q2 & Q3 & Q4 & Hsh & HL & Hla & Hph & H8 & H2 & Hlm & Dr & Dt).
  destruct (C65_run_completes fmt stod_ sch_res sch_tv b lib par file dir fs HP Hr Hs) as (st & EM).
  destruct (C89_trace file dir fs st EM) as (evs & EV & EP).
  exists g, e, u0, (advance g e), (fun u => rho_of g e (fst u) (snd u)), evs, st.
  split; auto. split; [eapply advance_is_step; eauto|]. split; [eapply rho_is_rho; eauto|]. do 3 (split; auto).
  set (K := (pr_nt par - 1) / pr_t_step_save par).
  (* the events in closed form *)
  assert (EC : evs = map (evn g par dir e u0) (seq 0 (2 * S K))).
  { rewrite <- all_two_evn. unfold main_events in EV. rewrite EI in EV. cbn [bind] in EV.
    destruct (init_play file dir fs par g st0 EI) as (ev0 & E0 & P0). rewrite E0 in EV. cbn [bind] in EV.
    assert (E0' : ev0 = two g dir e u0 0).
    { unfold init_events in E0. rewrite HP in E0. cbn [bind] in E0. cbv zeta in E0. destruct SU as (SU1 & SU2 & SU3). rewrite SU1 in E0. cbn [bind] in E0. rewrite SU2 in E0. cbn [bind] in E0.
      change (fl_n (Field_make (txt "f") (pr_nx par * pr_nlat par * pr_nphi par) f0)) with (vec (pr_nx par * pr_nlat par * pr_nphi par) (@f0 F _)) in E0.
      change (fl_n (Field_make (txt "p") (pr_nx par * pr_nlat par * pr_nphi par) f0)) with (vec (pr_nx par * pr_nlat par * pr_nphi par) (@f0 F _)) in E0.
      change (fl_np1 (Field_make (txt "f") (pr_nx par * pr_nlat par * pr_nphi par) f0)) with (vec (pr_nx par * pr_nlat par * pr_nphi par) (@f0 F _)) in E0.
      change (fl_np1 (Field_make (txt "p") (pr_nx par * pr_nlat par * pr_nphi par) f0)) with (vec (pr_nx par * pr_nlat par * pr_nphi par) (@f0 F _)) in E0.
      rewrite SU3 in E0. cbn [bind] in E0. destruct u0 as [f1 p1]. cbn [fst snd bind] in *.
      assert (EW : with_scr e (e_scr e) = e) by (destruct e; reflexivity). rewrite <- EW in E0 at 1.
      destruct (HC 0 (or_introl eq_refl)) as [C1 C2].
      assert (HX : exists c1 R1 R2 n1, grid_of b (lib (pr_nl par) (pr_nm par) (pr_nlat par) (pr_nphi par)) c1 R1 R2 n1 g /\ (use_cheb b = false -> 8 <= n1) /\ (use_cheb b = true -> 2 <= n1)) by eauto 10.
      destruct HX as (c1 & R1 & R2 & n1 & Hg' & H8' & H2').
      rewrite (save_closed _ c1 R1 R2 n1 g Hg' Hsh ltac:(rewrite Q1; auto) H8' H2' dir e Oe (fs_can fs) 0 _ _ _ (e_scr e)) in E0; auto; try lia.
      - injection E0 as <-. reflexivity.
      - apply Oe.
      - unfold field_ok. cbn. rewrite !vec_length, <- !N3. auto.
      - unfold field_ok. cbn. rewrite !vec_length, <- !N3. auto.
      - rewrite vec_length. auto. }
    subst ev0. destruct (Nat.eq_dec (pr_nt par) 0) as [Z|Z].
    { rewrite Z, for_nil in EV by lia. cbn [bind] in EV. injection EV as <-. unfold K. rewrite Z. cbn [Nat.sub]. rewrite Nat.div_0_l by lia. reflexivity. }
    destruct (loop_closed _ _ _ _ _ g Hg Hsh ltac:(rewrite Q1; auto) H8 H2 ltac:(lia) ltac:(lia) par Hs ltac:(rewrite N3; auto) ltac:(rewrite Nx; auto) dir e Oe u0 fs st0 I0
      ltac:(intros fn; rewrite P0, play_can; reflexivity) (pr_nt par - 1) ltac:(lia)) as (st1 & E1).
    { intros k Hk. apply HC. destruct k; [now left|right; lia]. }
    replace (1 + (pr_nt par - 1)) with (pr_nt par) in E1 by lia. rewrite E1 in EV. cbn [bind] in EV. injection EV as <-. reflexivity. }
  assert (SV : forall k, saved par k <-> k <= K) by (intros; apply saved_le; auto).
  assert (ND : forall l, NoDup l -> NoDup (map fst (map (evn g par dir e u0) l))).
  { intros l Hl. rewrite map_map. apply FinFun.Injective_map_NoDup; auto. intros x y. apply evn_inj. }
  (* after [done] complete appends *)
  assert (DONE : forall d m, fs_file (play fs (map (evn g par dir e u0) (seq 0 d))) (fst (evn g par dir e u0 m)) =
     if m <? d then Some (contents fs (fst (evn g par dir e u0 m)) ++ snd (evn g par dir e u0 m)) else fs_file fs (fst (evn g par dir e u0 m))).
  { intros d m. destruct (Nat.ltb_spec m d) as [Hm|Hm].
    - apply play_in; [apply ND, seq_NoDup|]. apply in_map_iff. exists m. split; [now destruct (evn g par dir e u0 m)|apply in_seq; lia].
    - apply play_out. rewrite map_map. intros HI. apply in_map_iff in HI. destruct HI as (m' & E & Hm'). apply evn_inj in E. apply in_seq in Hm'. lia. }
  assert (OTHER : forall d fn, d <= 2 * S K -> (forall k, k <= K -> fn <> f_file dir k /\ fn <> rho_file dir k) -> fs_file (play fs (map (evn g par dir e u0) (seq 0 d))) fn = fs_file fs fn).
  { intros d fn Hd Hfn. apply play_out. rewrite map_map. intros HI. apply in_map_iff in HI. destruct HI as (m & E & Hm). apply in_seq in Hm. unfold evn in E. cbv zeta in E.
    assert (Nat.div2 m <= K) by (pose proof (Nat.div2_odd m) as DO; destruct (Nat.odd m); cbn [Nat.b2n] in DO; lia). destruct (Hfn (Nat.div2 m)) as [A B]; auto. destruct (Nat.even m); cbn [fst] in E; congruence. }
  assert (FIN : forall fs' d, (forall m, m < 2 * S K -> progress fs fs' d m (fst (evn g par dir e u0 m)) (snd (evn g par dir e u0 m))) ->
    forall k, saved par k -> let u := Nat.iter (k * pr_t_step_save par) (advance g e) u0 in
         exists tf tr, is_text fmt g (fst u) tf /\ is_text fmt g (rho_of g e (fst u) (snd u)) tr /\
           progress fs fs' d (2 * k) (f_file dir k) tf /\ progress fs fs' d (2 * k + 1) (rho_file dir k) tr).
  { intros fs' d HPr k Hk u. apply SV in Hk. destruct (iter_sizes sch_res sch_tv b lib par g e Hr Hg Oe u0 (k * pr_t_step_save par) L1 L2) as [M1 M2]. fold (U g e u0 (k * pr_t_step_save par)) in u. fold u in M1, M2.
    exists (r_text fmt g (fst u)), (r_text fmt g (rho_of g e (fst u) (snd u))).
    split; [eapply text_is_text; eauto|]. split; [eapply text_is_text; eauto; eapply step_sizes; eauto|].
    pose proof (HPr (2 * k) ltac:(lia)) as A. pose proof (HPr (S (2 * k)) ltac:(lia)) as B. unfold evn in A, B. cbv zeta in A, B. destruct (even_double k) as (D1 & D2 & D3 & D4). rewrite D1, D3 in A. rewrite D2, D4 in B. cbn [fst snd] in A, B.
    rewrite Nat.add_1_r. auto. }
  rewrite EC. intros fs' HK. destruct HK as [d t E|d fn a c t E].
  - destruct (prefix_map _ _ _ _ E) as [Ed Ld]. set (n0 := length d) in *. exists n0. clearbody n0. rewrite Ed. split.
    + apply FIN. intros m Hm. unfold progress. rewrite DONE. destruct (Nat.ltb_spec m n0); (split; [|split]); intros; try lia; auto.
    + intros fn Hfn. apply OTHER; auto. intros k Hk. apply Hfn, SV. auto.
  - destruct (prefix_map _ _ _ _ E) as [Ed Ld].
    assert (EN : (fn, a ++ c) = evn g par dir e u0 (length d) /\ length d < 2 * S K).
    { assert (LN : length d < 2 * S K) by (apply (f_equal (@length _)) in E; rewrite map_length, seq_length, app_length in E; cbn [length] in E; lia). split; auto.
      apply (f_equal (fun l => nth_error l (length d))) in E. rewrite nth_error_app2, Nat.sub_diag in E by lia. cbn [nth_error] in E.
      rewrite nth_error_map in E. rewrite (nth_error_nth' _ 0) in E by (rewrite seq_length; auto). rewrite seq_nth in E by auto. cbn [option_map Nat.add] in E. congruence. }
    assert (HD : exists n0, d = map (evn g par dir e u0) (seq 0 n0) /\ (fn, a ++ c) = evn g par dir e u0 n0 /\ n0 < 2 * S K) by (exists (length d); tauto).
    clear E Ed Ld EN. destruct HD as (n0 & Ed & EN & LN). exists n0. rewrite Ed. clear Ed.
    assert (F1 : fn = fst (evn g par dir e u0 n0)) by (rewrite <- EN; reflexivity). assert (F2 : snd (evn g par dir e u0 n0) = a ++ c) by (rewrite <- EN; reflexivity). split.
    + apply FIN. intros m Hm. unfold progress. cbn [fs_append fs_file]. unfold text_eqb. rewrite F1. unfold contents in *. destruct (list_eq_dec ascii_dec (fst (evn g par dir e u0 m)) (fst (evn g par dir e u0 n0))) as [Q|Q].
      * apply evn_inj in Q. subst m. repeat split; intros; try lia. right. exists a, c. split; auto. rewrite DONE. destruct (Nat.ltb_spec n0 n0); [lia|reflexivity].
      * rewrite DONE. assert (m <> n0) by congruence. destruct (Nat.ltb_spec m n0); (split; [|split]); intros; try lia; auto.
    + intros fn' Hfn. cbn [fs_append fs_file]. unfold text_eqb. destruct (list_eq_dec ascii_dec fn' fn) as [->|].
      * exfalso. assert (Nat.div2 n0 <= K) by (pose proof (Nat.div2_odd n0) as DO; destruct (Nat.odd n0); cbn [Nat.b2n] in DO; lia). destruct (Hfn (Nat.div2 n0)) as [A B]; [now apply SV|]. unfold evn in F1. cbv zeta in F1. destruct (Nat.even n0); cbn [fst] in F1; congruence.
      * apply OTHER; [lia|]. intros k Hk. apply Hfn, SV. auto.
Qed.
(** every file found after a kill is the front part of the file the completed run leaves *)
Theorem C89_front fs evs fs' : killed fs evs fs' -> forall fn, exists rest, contents (play fs evs) fn = contents fs' fn ++ rest.
Proof.
  assert (G : forall evs fs1 fn, exists rest, contents (play fs1 evs) fn = contents fs1 fn ++ rest).
  { induction evs0 as [|[n t] evs0 IH]; intros fs1 fn; [exists []; now rewrite app_nil_r|]. cbn [play fold_left fst snd]. destruct (IH (fs_append fs1 n t) fn) as (r & Er). unfold play in Er. rewrite Er.
    unfold contents at 1. cbn [fs_append fs_file]. unfold text_eqb. destruct (list_eq_dec ascii_dec fn n) as [->|]; [exists (t ++ r); now rewrite app_assoc|exists r; reflexivity]. }
  intros HK fn. destruct HK as [d t ->|d n a c t ->].
  - rewrite play_app. apply G.
  - rewrite play_app. cbn [play fold_left fst snd]. destruct (G t (fs_append (play fs d) n (a ++ c)) fn) as (r & Er). unfold play in Er |- *. rewrite Er.
    unfold contents. cbn [fs_append fs_file]. unfold text_eqb. destruct (list_eq_dec ascii_dec fn n) as [->|]; [|exists r; reflexivity].
    exists (c ++ r). now rewrite <- !app_assoc.
Qed.
End C89.

(** ** A run that meets the hypotheses, and a kill in the middle of its second file *)
From Verif Require Import Toy.
Section Example_.
#[local] Existing Instance Z_arith.
Definition free_disk : fsys := Fs (fun _ => None) (fun _ => true).
Example C89_nonvacuous :
  Params_make demo_stod (Build false true false) (Some (demo_file "7" "3")) = Ok (demo_params 7 3) /\
  runnable (fun _ => two_threads 108) (fun _ => two_threads 8) (Build false true false) toy_sht (demo_params 7 3) /\ 1 <= pr_t_step_save (demo_params 7 3) /\
  saved (demo_params 7 3) 2 /\
  exists evs, main_events (fun _ => txt "x") demo_stod (fun _ => two_threads 108) (fun _ => two_threads 8) (Build false true false) toy_sht (Some (demo_file "7" "3")) (txt ".") free_disk = Ok evs /\
    length evs = 6 /\ map fst evs = [f_file (txt ".") 0; rho_file (txt ".") 0; f_file (txt ".") 1; rho_file (txt ".") 1; f_file (txt ".") 2; rho_file (txt ".") 2] /\
    exists fs', killed free_disk evs fs' /\ fs_file fs' (f_file (txt ".") 0) <> None /\ fs_file fs' (rho_file (txt ".") 0) = Some (txt "R,l") /\ fs_file fs' (f_file (txt ".") 1) = None.
Proof.
  destruct C48_C51_C65_nonvacuous as (A & _ & _ & B & C & _). split; [exact A|]. split; [apply B|]. split; [cbn; lia|]. split; [exact C|].
  eexists. split; [vm_compute; reflexivity|]. split; [reflexivity|]. split; [vm_compute; reflexivity|].
  eexists. split; [eapply (amid _ _ [_] _ (txt "R,l") _ _); simpl; reflexivity|]. split; [vm_compute; discriminate|]. split; vm_compute; reflexivity.
Qed.
End Example_.
